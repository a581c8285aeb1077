(** * connect, disconnect(f), emissions: what the caller gets *)
From Verif Require Export InvOp.

Lemma get_us_Some x u r : get_us x u = Some r -> v_us x !! u = Some (UsV true (us_impl r)).
Proof. unfold get_us. destruct (v_us x !! u) as [[[] i]|] eqn:Hu; cbn; intros H; simplify_eq; auto. Qed.

Lemma mine_app t L new : mine t (L ++ new) = mine t L ++ mine t new.
Proof. apply filter_app. Qed.
Lemma mine_cons t ev new : thread_of ev = Some t -> mine t (ev :: new) = ev :: mine t new.
Proof. intros H. unfold mine. rewrite filter_cons_True by auto. reflexivity. Qed.
Lemma mine_skip t ev new : thread_of ev <> Some t -> mine t (ev :: new) = mine t new.
Proof. intros H. unfold mine. rewrite filter_cons_False by auto. reflexivity. Qed.
Lemma app_log_same (a b c : list event) : c = a ++ b -> forall x, c = x ++ b -> x = a.
Proof. intros -> x H. eapply app_inv_tail. symmetry. exact H. Qed.

(** ** connect *)
Section connect.
  Context (e : env) (ps : list prog) (t : tid) (s : sid) (src : csrc) (sc : bool) (k : out -> prog) (st : list frame) (w0 : world).
  Definition conn_out (o : out) (new : list event) : Prop :=
    (o = oom /\ mine t new = []) \/
    (exists l i, o = OutId l /\ connects w0 src i /\ mine t new = [EConn t s l i]).
  Inductive conn_ph : list frame -> list event -> Prop :=
  | CP_lock i new : connects w0 src i -> mine t new = [] -> conn_ph [FLock s (KAdd i); FMkConn sc] new
  | CP_write i new : connects w0 src i -> mine t new = [] -> conn_ph [FWrite s (KAdd i); FMkConn sc] new
  | CP_body v i new : connects w0 src i -> mine t new = [] -> conn_ph [FBody s v (KAdd i); FMkConn sc] new
  | CP_unlock o new : conn_out o new -> conn_ph [FUnlock s o; FMkConn sc] new
  | CP_ret o new : conn_out o new -> conn_ph [FRet o; FMkConn sc] new
  | CP_oom new : mine t new = [] -> conn_ph [FRet oom] new
  | CP_done l c i new : connects w0 src i -> mine t new = [EHandle t l c; EConn t s l i] -> conn_ph [FRet (OutId c)] new.
  Lemma conn_ph_other c L new : (forall ev, ev ∈ L -> thread_of ev <> Some t) ->
    (forall s f ev, f ∈ c -> erases s f -> ev ∈ L -> ~ touches s ev) -> conn_ph c new -> conn_ph c (L ++ new).
  Proof.
    intros HL _ H. destruct H; econstructor; eauto; unfold conn_out in *; rewrite mine_none by auto; eauto.
  Qed.
  Lemma connects_idx i n : connects w0 src i -> connects w0 src (im_set_idx n i).
  Proof. destruct i, src; cbn; auto. Qed.
  Lemma conn_start w' st' new : w_thr w0 !! t = Some (FProg (Do (OConnect s src sc) k) :: st) -> reachable e ps w0 ->
    trans e w0 t (FProg (Do (OConnect s src sc) k) :: st) w' st' ->
    w_log w' = new ++ w_log w0 ->
    exists b f c, st' = b ++ f :: c ++ FWait k :: st /\ conn_ph (f :: c) new /\ ((b = [] /\ kills_nothing w0 w' t st') \/ False).
  Proof.
    intros Ht Hr Htr Hnew. pose proof (quiet_trans _ _ _ _ _ _ _ Hr Ht Htr I) as Hk.
    inversion Htr; subst.
    - exists [], (FRet oom), []. split; [reflexivity|]. split; [|auto]. rewrite (app_log_same [] _ _ eq_refl _ Hnew). constructor. auto.
    - rewrite (app_log_same [] _ _ eq_refl _ Hnew). match goal with H : begins _ _ _ _ _ |- _ => inversion H; subst end.
      + exists [], (FLock s (KAdd (new_impl c))), [FMkConn sc]. split; [reflexivity|]. split; [|auto]. constructor; [|auto].
        match goal with H : _ = src |- _ => rewrite <- H end. repeat split.
      + exists [], (FLock s (KAdd i)), [FMkConn sc]. split; [reflexivity|]. split; [|auto]. constructor; [|auto].
        match goal with H : _ = src |- _ => rewrite <- H end. 
        exists i. match goal with H : get_us _ _ = Some _ |- _ => apply get_us_Some in H; cbn in H; rewrite H end. auto.
  Qed.
  Lemma conn_act w f c new w' st' new' : reachable e ps w -> w_log w = new ++ w_log w0 ->
    w_thr w !! t = Some (f :: c ++ FWait k :: st) -> AT adj (f :: c ++ FWait k :: st) ->
    conn_ph (f :: c) new -> (forall o, f :: c <> [FRet o]) ->
    trans e w t (f :: c ++ FWait k :: st) w' st' -> w_log w' = new' ++ w_log w0 ->
    exists b' f' c', st' = b' ++ f' :: c' ++ FWait k :: st /\ conn_ph (f' :: c') new' /\ ((b' = [] /\ kills_nothing w w' t st') \/ False).
  Proof.
    intros Hr Hlog Ht HA Hph Hn Htr Hnew.
    assert (Hq : quiet (f :: c ++ FWait k :: st)).
    { inversion Hph; subst; try exact I; edestruct Hn; reflexivity. }
    pose proof (quiet_trans _ _ _ _ _ _ _ Hr Ht Htr Hq) as Hk. clear Hq.
    assert (Hsame : w_log w' = w_log w -> new' = new).
    { intros He. apply (app_log_same new (w_log w0) (w_log w')); congruence. }
    assert (Hone : forall ev, w_log w' = ev :: w_log w -> new' = ev :: new).
    { intros ev He. apply (app_log_same (ev :: new) (w_log w0) (w_log w')); [|congruence]. rewrite He, Hlog. reflexivity. }
    inversion Hph; subst; try (edestruct Hn; reflexivity); cbn [app] in *; inversion Htr; subst;
      first [specialize (Hsame eq_refl); subst new'|specialize (Hone _ eq_refl); subst new'];
      first [eexists [], _, [FMkConn sc]; split; [reflexivity|]; split; [|left; split; [reflexivity|exact Hk]]|eexists [], _, []; split; [reflexivity|]; split; [|left; split; [reflexivity|exact Hk]]];
      try (econstructor; eauto; fail).
    - constructor. left. auto.
    - constructor. left. auto.
    - constructor. right. eexists _, _. split; [reflexivity|]. split; [apply connects_idx; eauto|]. rewrite mine_cons by reflexivity. f_equal. auto.
    - match goal with H : conn_out _ _ |- _ => destruct H as [[? _]|(l0 & i & Ho & Hc & Hm)] end; [discriminate|]. simplify_eq.
      econstructor; [exact Hc|]. rewrite mine_cons by reflexivity. rewrite Hm. reflexivity.
    - match goal with H : conn_out _ _ |- _ => destruct H as [[-> ?]|(l0 & i & Ho & Hc & Hm)] end; [constructor; auto|]. 
      naive_solver.
  Qed.
  Lemma conn_ret w o f c new w' st' new' : reachable e ps w -> w_log w = new ++ w_log w0 ->
    w_thr w !! t = Some (FRet o :: f :: c ++ FWait k :: st) -> AT adj (FRet o :: f :: c ++ FWait k :: st) ->
    conn_ph (f :: c) new ->
    trans e w t (FRet o :: f :: c ++ FWait k :: st) w' st' -> w_log w' = new' ++ w_log w0 ->
    exists b' f' c', st' = b' ++ f' :: c' ++ FWait k :: st /\ conn_ph (f' :: c') new' /\ ((b' = [] /\ kills_nothing w w' t st') \/ False).
  Proof. intros Hr Hlog Ht HA Hph Htr Hnew. exfalso. inversion Hph; subst; inversion Htr. Qed.
  Lemma connect_returns w o : reachable e ps w0 -> in_call e t (OConnect s src sc) k st w0 w -> returned t k st w o ->
    exists new, since w0 w new /\
      ((o = OutExn BadAlloc /\ mine t new = []) \/
       (exists l c i, o = OutId c /\ connects w0 src i /\ mine t new = [EHandle t l c; EConn t s l i])).
  Proof.
    intros Hr Hc Hret.
    assert (Ht : w_thr w0 !! t = Some (FProg (Do (OConnect s src sc) k) :: st)) by (clear Hret; induction Hc; auto).
    destruct (call_returned e ps t (OConnect s src sc) k st w0 conn_ph (fun _ => False) conn_ph_other) with (w := w) (o := o) as (new & Hs & Hp); auto.
    - contradiction.
    - contradiction.
    - intros. eapply conn_start; eauto.
    - apply conn_act.
    - apply conn_ret.
    - exists new. split; [auto|]. inversion Hp; subst; [left; auto|right; eauto 10].
  Qed.
  (** The step that returns makes the handle. *)
  Lemma connect_handle w fail w' h : reachable e ps w0 -> in_call e t (OConnect s src sc) k st w0 w -> (forall o, ~ returned t k st w o) ->
    step e w t fail = SOk w' -> returned t k st w' (OutId h) ->
    h = length (v_conns (w_vars w)) /\ exists l, v_conns (w_vars w') = v_conns (w_vars w) ++ [ConnV true sc (Some l)] /\
      v_blks (w_vars w') = v_blks (w_vars w) /\ v_us (w_vars w') = v_us (w_vars w) /\ v_objs (w_vars w') = v_objs (w_vars w) /\
      v_store (w_vars w') = v_store (w_vars w) /\ EHandle t l h ∈ w_log w' /\ exists i, EConn t s l i ∈ w_log w'.
  Proof.
    intros Hr Hc Hnr Hst Hret.
    assert (Ht : w_thr w0 !! t = Some (FProg (Do (OConnect s src sc) k) :: st)) by (clear Hret Hst Hnr; induction Hc; auto).
    destruct (call_inv e ps t (OConnect s src sc) k st w0 conn_ph (fun _ => False) conn_ph_other) with (w := w) as (Hrw & b & f & c & new & Hw & Hl & Hp & [->|[]]); auto.
    { contradiction. } { contradiction. } { intros. eapply conn_start; eauto. } { apply conn_act. } { apply conn_ret. }
    cbn [app] in Hw. destruct (step_inv _ _ _ _ _ _ Hst Hw) as (w1 & st1 & D & L & Htr & _ & HD & HL & _ & _ & _ & Hv & Hlog & Hthr).
    unfold returned in Hret. rewrite Hthr, list_lookup_insert in Hret by (eapply lookup_lt_Some; eauto). injection Hret as Hret.
    assert (D = []) as ->.
    { destruct D as [|g D]; [reflexivity|]. injection Hret as -> _. unfold dtorish in HD. rewrite Forall_cons in HD. destruct HD as [[[? ?]|[? ?]] _]; discriminate. }
    cbn in Hret. subst st1. clear Hst Hthr HD.
    inversion Hp; subst; cbn [app] in *; try (exfalso; eapply Hnr; exact Hw); inversion Htr; subst.
    all: match goal with H : conn_out _ _ |- _ => destruct H as [[? _]|(l0 & i & Ho & Hcn & Hm)] end; simplify_eq.
    2:{ match goal with H : forall l, OutId _ <> OutId l |- _ => edestruct H; reflexivity end. }
    rewrite Hv, Hlog. wcbn. split; [reflexivity|]. eexists. repeat (split; [reflexivity|]). split; [apply elem_of_app; right; apply elem_of_list_here|].
    exists i. apply elem_of_app. right. apply elem_of_list_further. rewrite Hl. apply elem_of_app. left.
    assert (Hx : EConn t s l0 i ∈ mine t new) by (rewrite Hm; apply elem_of_list_here). unfold mine in Hx. apply elem_of_list_filter in Hx. tauto.
  Qed.
End connect.
