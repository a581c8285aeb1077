(** * Where the events of a log come from *)
From Verif Require Export InvObj.

Lemma cons_ne {A} (x : A) l : x :: l <> l.
Proof. intros H. apply (f_equal length) in H. cbn in H. lia. Qed.
Lemma cons2_ne {A} (x y : A) l : x :: y :: l <> l.
Proof. intros H. apply (f_equal length) in H. cbn in H. lia. Qed.

(** [logs e w t st w' st' ev pre]: the step from [w] logged [ev] when the log was [pre]. *)
Inductive logs (e : env) (w : world) (t : tid) (st : list frame) (w' : world) (st' : list frame) : event -> list event -> Prop :=
| L_one ev : w_log w' = ev :: w_log w -> logs e w t st w' st' ev (w_log w)
| L_flag l args pin eid start st0 i :
    st = FSlot (RSlot l) SDead args pin eid start :: st0 -> get_ref w (RSlot l) = Some i -> im_conn i = true ->
    w_log w' = ESkip t (RSlot l) eid start :: EFlag l :: w_log w ->
    logs e w t st w' st' (EFlag l) (w_log w)
| L_skip l args pin eid start st0 i :
    st = FSlot (RSlot l) SDead args pin eid start :: st0 -> get_ref w (RSlot l) = Some i -> im_conn i = true ->
    w_log w' = ESkip t (RSlot l) eid start :: EFlag l :: w_log w ->
    logs e w t st w' st' (ESkip t (RSlot l) eid start) (EFlag l :: w_log w).

Lemma trans_log e w t st w' st' :
  trans e w t st w' st' ->
  w_log w' = w_log w \/ (exists ev, w_log w' = ev :: w_log w) \/
  (exists l args pin eid start st0 i, st = FSlot (RSlot l) SDead args pin eid start :: st0 /\
     get_ref w (RSlot l) = Some i /\ im_conn i = true /\
     w_log w' = ESkip t (RSlot l) eid start :: EFlag l :: w_log w).
Proof.
  destruct 1; wcbn; autorewrite with wsimp; eauto.
  destruct (cc_log w r) as [->|(l & i0 & -> & Hi & Hc & ->)]; [eauto|].
  right. right. eauto 20.
Qed.

Definition is_dead (ev : event) : bool := match ev with ESlotDead _ | EObjDead _ => true | _ => false end.

Lemma app_cons_case {A} (a b : list A) (x : A) c d :
  a ++ b = c ++ x :: d ->
  (exists c2, c = a ++ c2 /\ b = c2 ++ x :: d) \/ (exists a2, a = c ++ x :: a2 /\ d = a2 ++ b).
Proof.
  revert c; induction a as [|y a IH]; intros c H; cbn in H.
  - left. exists c. auto.
  - destruct c as [|z c]; cbn in H; simplify_eq.
    + right. exists a. auto.
    + match goal with H : _ ++ _ = _ ++ _ |- _ => rename H into H' end.
      destruct (IH _ H') as [(c2 & -> & ->)|(a2 & -> & ->)]; [left|right]; eauto.
Qed.

(** [ev] was logged, after [pre], by a step from a reachable world; [full] is an
    extension of the log after that step. *)
Definition logged e ps (full : list event) (ev : event) (pre : list event) : Prop :=
  exists w0 t st w1 st1, reachable e ps w0 /\ w_thr w0 !! t = Some st /\ trans e w0 t st w1 st1 /\
    logs e w0 t st w1 st1 ev pre /\ reachable e ps (reap e w0 w1 t st1) /\
    exists post, full = post ++ w_log (reap e w0 w1 t st1).

Lemma hist e ps w : reachable e ps w -> forall post ev pre, w_log w = post ++ ev :: pre -> is_dead ev = false ->
  logged e ps (w_log w) ev pre.
Proof.
  apply (reach_ind e ps (fun w => forall post ev pre, w_log w = post ++ ev :: pre -> is_dead ev = false ->
    logged e ps (w_log w) ev pre)).
  - intros post ev pre H. cbn in H. destruct post; discriminate.
  - clear w. intros w t st w' st' Hr HI Ht Htr Hr' post ev pre Hl Hd.
    destruct (reap_spec e w w' t st') as (D & L & HD & HL & Hreap & _).
    assert (Hlog : w_log (reap e w w' t st') = L ++ w_log w') by (rewrite Hreap; reflexivity).
    rewrite Hlog in Hl |- *.
    assert (Hlift : forall c2 c3, w_log w' = c2 ++ w_log w -> w_log w = c3 ++ ev :: pre ->
      logged e ps (L ++ w_log w') ev pre).
    { intros c2 c3 He Hw.
      destruct (HI _ _ _ Hw Hd) as (w1 & t1 & st1 & w1' & st1' & ? & ? & ? & ? & ? & post' & Hp).
      exists w1, t1, st1, w1', st1'. repeat (split; [assumption|]).
      exists (L ++ c2 ++ post'). rewrite He, Hp, !app_assoc. reflexivity. }
    assert (Hhere : logs e w t st w' st' ev pre -> logged e ps (L ++ w_log w') ev pre).
    { intros Hlg. exists w, t, st, w', st'. repeat (split; [assumption|]). exists []. rewrite Hlog. reflexivity. }
    apply app_cons_case in Hl as [(c2 & -> & Hl)|(a2 & HL' & ->)].
    2:{ exfalso. subst L. apply Forall_app in HL as [_ HL]. apply Forall_cons in HL as [[[? ->]|[? ->]] _]; discriminate. }
    destruct (trans_log _ _ _ _ _ _ Htr) as [He|[(ev1 & He)|(l & args & pin & eid & start & st0 & i & Hst & Hi & Hc & He)]];
      rewrite He in Hl.
    + eapply (Hlift []); eauto.
    + destruct c2 as [|x c2]; cbn in Hl; simplify_eq.
      * apply Hhere. constructor. auto.
      * eapply (Hlift [_]); [exact He|eassumption].
    + destruct c2 as [|x [|y c2]]; cbn in Hl; simplify_eq.
      * apply Hhere. eapply L_skip; eauto.
      * apply Hhere. eapply L_flag; eauto.
      * eapply (Hlift [ESkip t (RSlot l) eid start; EFlag l]); eauto.
Qed.

(** Inverts [logs _ _ _ _ _ _ ev _] for a particular event. *)
Ltac vlog_no :=
  try (exfalso; match goal with H : exec_vop _ _ _ = VOk _ _ (EfLog _) |- _ =>
         apply vop_ev in H as [(?&?&?)|[(?&?&?)|[(?&?&?)|[(?&?&?)|(?&?&?)]]]]; discriminate end).
Ltac logs_inv Htr Hlg :=
  inversion Hlg; subst; clear Hlg;
  [match goal with H : w_log _ = _ :: w_log _ |- _ =>
     destruct Htr; wcbn_in H; autorewrite with wsimp in H;
     try (exfalso; symmetry in H; exact (cons_ne _ _ H)); try discriminate; simplify_eq; vlog_no
   end|..].

(** Events about a slot that occur in the log. *)
Lemma log_all_hist e ps (P : event -> list event -> Prop) w :
  (forall ev pre, is_dead ev = true -> P ev pre) ->
  (forall w t st w' st' ev pre, reachable e ps w -> w_thr w !! t = Some st -> trans e w t st w' st' ->
     logs e w t st w' st' ev pre -> P ev pre) ->
  reachable e ps w -> log_all P (w_log w).
Proof.
  intros Hd H Hr post ev pre Hl. destruct (is_dead ev) eqn:Hde; [auto|].
  destruct (hist _ _ _ Hr _ _ _ Hl Hde) as (w0 & t & st & w' & st' & ? & ? & ? & ? & _). eauto.
Qed.

Lemma log_all_cons P ev log : log_all P (ev :: log) <-> P ev log /\ log_all P log.
Proof.
  split.
  - intros H. split; [apply (H []); reflexivity|]. intros post ev' pre ->. apply (H (ev :: post)). reflexivity.
  - intros [H1 H2] [|x post] ev' pre Heq; cbn in Heq; simplify_eq; eauto.
Qed.
Lemma log_all_nil P : log_all P [].
Proof. intros [|x post] ev pre H; discriminate. Qed.
