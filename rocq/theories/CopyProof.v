(** * When lists of slots are copied *)
From Verif Require Import InvUse InvSig InvDeath InvFields InvObj InvCall Hist Facts WaitProof AloneProof CallRun.
From Verif Require Export AtomicCalls SpecCopy.

Lemma filter_one {A} (P : A -> bool) (xs : list A) :
  (forall i j x y, xs !! i = Some x -> xs !! j = Some y -> P x = true -> P y = true -> i = j) -> length (filter (fun x => P x) xs) <= 1.
Proof.
  induction xs as [|x xs IH]; intros H; [cbn; lia|]. rewrite filter_cons. destruct (P x) eqn:Hx.
  - rewrite decide_True by exact I. assert (Hnil : filter (fun x => P x) xs = []); [|cbn; rewrite Hnil; cbn; lia].
    destruct (filter (fun x => P x) xs) as [|y ys] eqn:Hf; [reflexivity|]. exfalso.
    assert (Hy : y ∈ filter (fun x => P x) xs) by (rewrite Hf; apply elem_of_list_here).
    apply elem_of_list_filter in Hy as [Hy Hin]. apply elem_of_list_lookup in Hin as [j Hj].
    assert (0 = S j); [|discriminate]. eapply (H 0 (S j) x y); eauto. apply Is_true_eq_true. exact Hy.
  - rewrite decide_False by (intros []). apply IH. intros i j a b Ha Hb Pa Pb. assert (S i = S j); [|lia]. eapply H; eauto.
Qed.
Lemma shared_walked e ps w v : reachable e ps w -> 1 < use_count w v -> walked w v.
Proof.
  intros Hr Hu. rewrite use_count_emits in Hu. destruct (I_bound_inv _ _ _ Hr) as (_ & _ & Hb & _).
  assert (Hs : length (filter (fun r => sig_owns v r) (w_sigs w)) <= 1).
  { apply filter_one. intros i j x y Hi Hj Hx Hy. unfold sig_owns in Hx, Hy. apply andb_prop in Hx as [_ Hx]. apply andb_prop in Hy as [_ Hy].
    apply bool_decide_eq_true in Hx, Hy. eauto. }
  destruct (decide (wt (emits v) (w_thr w) = 0)) as [H0|H0]; [lia|].
  assert (H1 : exists t st, w_thr w !! t = Some st /\ swt (emits v) st <> 0).
  { clear -H0. unfold wt in H0. induction (w_thr w) as [|x thr IH]; [cbn in H0; lia|]. cbn in H0. destruct (decide (swt (emits v) x = 0)) as [Hx|Hx].
    - destruct IH as (t & st & H); [lia|]. exists (S t), st. exact H.
    - exists 0, x. auto. }
  destruct H1 as (t & st & Ht & Hn).
  assert (H2 : exists f, f ∈ st /\ emits v f <> 0).
  { clear -Hn. unfold swt in Hn. induction st as [|f st IH]; [cbn in Hn; lia|]. cbn in Hn. destruct (decide (emits v f = 0)) as [Hx|Hx].
    - destruct IH as (g & Hg & H); [lia|]. exists g. split; [right; auto|auto].
    - exists f. split; [left|auto]. }
  destruct H2 as (f & Hf & He). unfold emits in He. destruct f; cbn in He; try congruence. case_bool_decide; [|congruence]. subst. repeat eexists; eauto.
Qed.
Lemma write_lives e ps w t s k st r : reachable e ps w -> w_thr w !! t = Some (FWrite s k :: st) -> w_sigs w !! s = Some r -> sg_alive r = true.
Proof.
  intros Hr Ht Hs. pose proof (write_holds _ _ _ _ _ _ _ Hr Ht) as Hl. unfold lock_of in Hl. rewrite Hs in Hl. cbn in Hl.
  destruct (I_bound_inv _ _ _ Hr) as (_ & _ & _ & Hb). eauto.
Qed.
Lemma grows e ps w t fail w' : reachable e ps w -> step e w t fail = SOk w' -> lists w' <> lists w ->
  (exists c k st, w_thr w !! t = Some (FProg (Do (ONewSignal c) k) :: st) /\ w_vecs w' = w_vecs w ++ [[]]) \/
  (exists s v v', copied w w' s v v' /\ walked w v).
Proof.
  intros Hr Hs Hn. destruct (step_trans _ _ _ _ _ Hs) as (st & _ & _ & Ht & _).
  destruct (step_inv _ _ _ _ _ _ Hs Ht) as (w1 & st1 & D & L & Htr & Hl & _ & _ & Hsg & Hv & _). unfold lists in Hn. rewrite Hv in Hn |- *.
  assert (Hd : forall s k st0 r v, st = FWrite s k :: st0 -> w_sigs w !! s = Some r -> sg_vec r = Some v -> lstep e w t fail st = LOk w1 st1 -> writes k ->
    w1 = w_alter_sig (w_set_vecs w (w_vecs w ++ [vec_of w v])) s (sg_set_vec (Some (length (w_vecs w)))) -> exists s v v', copied w w' s v v' /\ walked w v).
  { intros s k st0 r v -> Hsr Hvr Hl' Hw Hw1. exists s, v, (length (w_vecs w)). pose proof (write_lives _ _ _ _ _ _ _ _ Hr Ht Hsr) as Ha.
    cbn in Hl'. unfold step_write in Hl'. rewrite Hsr, Hvr in Hl'.
    destruct (Nat.ltb 1 (use_count w v)) eqn:Hu.
    - apply Nat.ltb_lt in Hu. split; [|eapply shared_walked; eauto]. split; [eexists; eauto|]. split; [|split].
      + eexists. rewrite Hsg, Hw1. cbn. rewrite list_lookup_alter, Hsr. cbn. split; [reflexivity|]. destruct r; cbn in *; auto.
      + apply lookup_ge_None_2. lia.
      + rewrite Hv, Hw1. reflexivity.
    - exfalso. assert (w1 = w) as ->; [destruct k; cbn in Hw; try contradiction; congruence|]. congruence. }
  destruct Htr; cbn in Hn; autorewrite with wsimp in Hn; rewrite ?app_length, ?insert_length in Hn; try congruence.
  all: try (right; eapply Hd; eauto; fail).
  left. eexists _, _, _. split; [exact Ht|]. reflexivity.
Qed.
Lemma terminates e ps w t fail : reachable e ps w -> step e w t fail = SUB UTerminate -> exists stk, w_thr w !! t = Some stk /\
  ((exists x d st, stk = FRet (OutExn x) :: FDtor d :: st) \/
   (exists c k st, stk = FProg (Do (ONewSignal c) k) :: st /\ fail = MAbort) \/
   (exists s c st v, stk = FWrite s c :: st /\ list_of w s v /\ walked w v /\ (fail = MAbort \/ fail = MThrow /\ exists l, c = KRem l))).
Proof.
  intros Hr Hs. unfold step in Hs. destruct (w_thr w !! t) as [stk|] eqn:Ht; [|discriminate]. exists stk. split; [reflexivity|].
  destruct (lstep e w t fail stk) as [| | |u] eqn:Hl; try discriminate. injection Hs as ->.
  destruct stk as [|f st]; [discriminate|]. destruct f; try (cbn in Hl; unfold step_body, step_slot, skip in Hl; repeat case_match; discriminate).
  - cbn in Hl. destruct st as [|g st]; [discriminate|]. destruct g; cbn in Hl; try (repeat case_match; discriminate).
    destruct o; try discriminate. left. eauto.
  - destruct p as [o|o k]; cbn in Hl; [discriminate|].
    destruct o; cbn in Hl; try (repeat case_match; discriminate).
    + destruct (exec_vop w t v) as [x o1 ef|x l a|u] eqn:Hx; [destruct ef; discriminate|case_match; discriminate|]. injection Hl as ->. exfalso.
      unfold exec_vop, disc_res in Hx. cbv zeta in Hx. destruct v; repeat case_match; discriminate.
    + destruct fail; try discriminate. right; left. eauto 10.
  - right; right. cbn in Hl. unfold step_write in Hl. destruct (w_sigs w !! s) as [r|] eqn:Hsr; [|discriminate].
    pose proof (write_lives _ _ _ _ _ _ _ _ Hr Ht Hsr) as Ha.
    destruct k; try discriminate; destruct (sg_vec r) as [v|] eqn:Hv; try discriminate; destruct (Nat.ltb 1 (use_count w v)) eqn:Hu; try discriminate;
      apply Nat.ltb_lt in Hu; (eexists s, _, st, v; split; [reflexivity|]; split; [eexists; eauto|]; split; [eapply shared_walked; eauto|]); destruct fail; try discriminate; eauto.
Qed.
Lemma one_signal e ps w s1 s2 v : reachable e ps w -> list_of w s1 v -> list_of w s2 v -> s1 = s2.
Proof. intros Hr (r1 & H1 & _ & E1) (r2 & H2 & _ & E2). destruct (I_bound_inv _ _ _ Hr) as (_ & _ & Hb & _). eauto. Qed.

(** ** At most one per call *)
Definition pot (f : frame) : nat :=
  match f with
  | FDisc _ => 1
  | FLock _ (KAdd _) | FLock _ (KRem _) | FLock _ (KErase _) => 1
  | FWrite _ (KAdd _) | FWrite _ (KRem _) | FWrite _ (KErase _) => 1
  | _ => 0
  end.
Lemma pot_trans e w t stk w' stk' : trans e w t stk w' stk' ->
  (exists op k st, stk = FProg (Do op k) :: st /\ forall pos, op <> ODeref pos) \/ swt pot stk' + (length (w_vecs w') - length (w_vecs w)) <= swt pot stk.
Proof.
  destruct 1; try (left; eexists _, _, _; split; [reflexivity|discriminate]); try (left; eexists _, _, _; split; [reflexivity|]; intros ? ->; match goal with H : begins _ _ _ _ _ |- _ => inversion H end);
    try (left; eexists _, _, _; split; [reflexivity|]; intros ? ->; contradiction); right; cbn; autorewrite with wsimp; rewrite ?app_length, ?insert_length; cbn; rewrite ?swt_app, ?swt_cons; cbn; try lia.
  all: try (destruct k; cbn in *; try contradiction; lia).
  all: unfold swt; lia.
Qed.
Lemma after_pot w t v y l after : exec_vop w t v = VDo y l after -> swt pot after = 0.
Proof. intros H. unfold exec_vop, disc_res in H. cbv zeta in H. destruct v; repeat case_match; try discriminate; injection H as <- <- <-; reflexivity. Qed.
Lemma begins_pot w o s c fr : begins w o s c fr -> swt pot (FLock s c :: fr) <= 1 /\ (~ may_make w o -> swt pot (FLock s c :: fr) = 0).
Proof. destruct 1; cbn; (split; [lia|]); intros Hn; auto; exfalso; auto. Qed.
Lemma do_pot e w t op k st w' st' : trans e w t (FProg (Do op k) :: st) w' st' ->
  swt pot st' + (length (w_vecs w') - length (w_vecs w)) <= 1 + swt pot st /\
  (~ may_make w op -> swt pot st' + (length (w_vecs w') - length (w_vecs w)) <= swt pot st).
Proof.
  intros H. inversion H; subst; cbn; autorewrite with wsimp; rewrite ?app_length, ?insert_length; cbn; rewrite ?swt_app, ?swt_cons; cbn; unfold swt; try lia.
  - pose proof (after_pot _ _ _ _ _ _ ltac:(eassumption)) as Ha. unfold swt in Ha. rewrite Ha. split; [lia|]. intros Hn. exfalso. apply Hn.
    pose proof (do_disconnects _ _ _ _ _ _ ltac:(eassumption)) as Hd. exists l. exact Hd.
  - pose proof (after_pot _ _ _ _ _ _ ltac:(eassumption)) as Ha. unfold swt in Ha. rewrite Ha. lia.
  - destruct (begins_pot _ _ _ _ _ ltac:(eassumption)) as [H1 H2]. rewrite swt_cons in H1, H2. cbn in H1, H2. unfold swt in H1, H2. split; [lia|]. intros Hn. specialize (H2 Hn). lia.
Qed.
Lemma made_bound e ps t op k st w0 w n N : reachable e ps w0 -> (forall pos, op <> ODeref pos) ->
  (1 <= N \/ ~ may_make w0 op) -> made e t op k st w0 w n ->
  exists c b, w_thr w !! t = Some (c ++ b ++ FWait k :: st) /\ (c = [] \/ exists c2 k2, c = c2 ++ [FWait k2]) /\ shape b /\ n + swt pot b <= N.
Proof.
  intros Hr0 Hnd HN H.
  assert (Hup' : forall D s c b m, dtorish D -> s = c ++ b ++ FWait k :: st -> (c = [] \/ exists c2 k2, c = c2 ++ [FWait k2]) -> shape b -> m + swt pot b <= N ->
    exists c' b', Some (D ++ s) = Some (c' ++ b' ++ FWait k :: st) /\ (c' = [] \/ exists c2 k2, c' = c2 ++ [FWait k2]) /\ shape b' /\ m + swt pot b' <= N).
  { intros D s c b m HD -> [->|(c2 & k2 & ->)] Hb Hf.
    - exists [], (D ++ b). split; [rewrite <- app_assoc; reflexivity|]. split; [auto|]. split; [apply dtorish_shape; auto|].
      rewrite swt_app, (swt_dtorish pot D) by auto. exact Hf.
    - exists ((D ++ c2) ++ [FWait k2]), b. split; [rewrite <- !app_assoc; reflexivity|]. split; [eauto|]. auto. }
  (* a step of the thread, whose [g] new lists are counted only if the step is the call's own *)
  assert (Hstep : forall w w' fail c b m, w_thr w !! t = Some (c ++ b ++ FWait k :: st) -> (c = [] \/ exists c2 k2, c = c2 ++ [FWait k2]) -> shape b ->
    m + swt pot b <= N -> (forall o, ~ returned t k st w o) -> step e w t fail = SOk w' ->
    forall g, g = 0 \/ (g = lists w' - lists w /\ own_step k st (c ++ b ++ FWait k :: st)) ->
    exists c' b', w_thr w' !! t = Some (c' ++ b' ++ FWait k :: st) /\ (c' = [] \/ exists c2 k2, c' = c2 ++ [FWait k2]) /\ shape b' /\ m + g + swt pot b' <= N).
  { clear H w n. intros w w' fail c b m Ht Hc Hb Hm Hn Hs g Hg.
    destruct (step_inv _ _ _ _ _ _ Hs Ht) as (w1 & st1 & D & L & Htr & _ & HD & _ & _ & Hv & _ & _ & _ & Hthr).
    assert (Hg' : g = 0 \/ (g = length (w_vecs w1) - length (w_vecs w) /\ (forall f, f ∈ c ++ b -> client_frame f = false))).
    { destruct Hg as [Hg|[Hg (c0 & Heq & Hc0)]]; [auto|]. right. unfold lists in Hg. rewrite Hv in Hg. split; [auto|].
      rewrite app_assoc in Heq. apply app_inv_tail in Heq. subst c0. auto. }
    clear Hg. assert (Hown : c <> [] -> g = 0).
    { intros Hne. destruct Hg' as [|[_ Hcl]]; [auto|]. destruct Hc as [->|(c2 & k2 & ->)]; [congruence|].
      assert (Hx : client_frame (FWait k2) = false); [|discriminate]. apply Hcl. apply elem_of_app. left. apply elem_of_app. right. apply elem_of_list_here. }
    rewrite Hthr, list_lookup_insert by (eapply lookup_lt_Some; eauto).
    destruct (local _ _ _ _ _ _ Htr) as [(o & k' & st' & Heq & ->)|[(op' & k' & st' & Z & Heq & -> & Hn' & HZ & HfZ)|(X & Y & r & Heq & -> & HX & Hnw & Hsh & Hfi & Hno)]].
    - destruct Hc as [->|(c2 & k2 & ->)].
      { cbn in Heq. destruct b as [|f b]; [discriminate|]. cbn in Heq. injection Heq as -> Heq.
        destruct b as [|f b]; cbn in Heq; injection Heq as Hk Heq.
        - subst. exfalso. eapply Hn. exact Ht.
        - subst f. exfalso. apply shape_nw in Hb. apply Forall_inv_tail in Hb. apply Forall_inv in Hb. edestruct Hb; reflexivity. }
      rewrite Hown by (destruct c2; discriminate). rewrite Nat.add_0_r.
      destruct c2 as [|f c2]; [discriminate|]. cbn in Heq. injection Heq as -> Heq. destruct c2 as [|f c2]; cbn in Heq; injection Heq as Hk Heq; subst.
      { apply (Hup' D _ [] (FProg (k' o) :: b)); auto. }
      apply (Hup' D _ ((FProg (k' o) :: c2) ++ [FWait k2]) b); [auto|cbn; rewrite <- !app_assoc; reflexivity|right; eauto|auto|auto].
    - destruct Hc as [->|(c2 & k2 & ->)].
      { cbn in Heq. destruct b as [|f b]; [discriminate|]. cbn in Heq. injection Heq as -> Heq. subst st'.
        assert (g = 0) as ->. { destruct Hg' as [|[_ Hcl]]; [auto|]. discriminate (Hcl (FProg (Do op' k')) (elem_of_list_here _ _)). }
        rewrite Nat.add_0_r. apply (Hup' D _ (Z ++ [FWait k']) b); [auto|rewrite <- !app_assoc; reflexivity|eauto|exact Hb|exact Hm]. }
      rewrite Hown by (destruct c2; discriminate). rewrite Nat.add_0_r.
      destruct c2 as [|f c2]; [discriminate|]. cbn in Heq. injection Heq as -> Heq. subst st'.
      apply (Hup' D _ ((Z ++ FWait k' :: c2) ++ [FWait k2]) b); [auto|rewrite <- ?app_assoc; cbn; rewrite <- ?app_assoc; reflexivity|eauto|exact Hb|auto].
    - destruct Hc as [->|(c2 & k2 & ->)].
      { cbn in Heq. symmetry in Heq. destruct (nw_prefix _ _ _ _ _ Hnw Heq) as (b1 & -> & ->).
        destruct (pot_trans _ _ _ _ _ _ Htr) as [(op' & k' & st' & Hp & Hnd')|Hp].
        - destruct X as [|f X]; [congruence|]. cbn in Hp. injection Hp as -> <-.
          assert (g = 0) as ->. { destruct Hg' as [|[_ Hcl]]; [auto|]. discriminate (Hcl (FProg (Do op' k')) (elem_of_list_here _ _)). }
          cbn [app] in Htr. destruct (do_fits _ _ _ _ _ _ _ _ Htr Hnd') as (Z & HZ & _ & _). rewrite HZ, Nat.add_0_r.
          apply (Hup' D _ (Z ++ [FWait k']) (X ++ b1)); [auto|rewrite <- !app_assoc; reflexivity|eauto|exact Hb|exact Hm].
        - apply (Hup' D _ [] (Y ++ b1)); [auto|rewrite <- app_assoc; reflexivity|auto|auto|].
          cbn [app] in Hp. rewrite !swt_app in *. destruct Hg' as [->|[-> _]]; lia. }
      rewrite Hown by (destruct c2; discriminate). rewrite Nat.add_0_r.
      rewrite <- app_assoc in Heq. cbn in Heq. symmetry in Heq. destruct (nw_prefix _ _ _ _ _ Hnw Heq) as (b1 & -> & ->).
      apply (Hup' D _ ((Y ++ b1) ++ [FWait k2]) b); [auto|rewrite <- !app_assoc; reflexivity|eauto|auto|auto]. }
  induction H as [fail w Ht Hs|t' fail w w' n H IH Hn Hs|fail w w' stk n H IH Ht Hown Hn Hs].
  - destruct (step_inv _ _ _ _ _ _ Hs Ht) as (w1 & st1 & D & L & Htr & _ & HD & _ & _ & Hv & _ & _ & _ & Hthr).
    rewrite Hthr, list_lookup_insert by (eapply lookup_lt_Some; eauto).
    destruct (do_fits _ _ _ _ _ _ _ _ Htr Hnd) as (Z & -> & HZ & Hf). destruct (do_pot _ _ _ _ _ _ _ _ Htr) as [Hp1 Hp2].
    apply (Hup' D _ [] Z); auto. unfold lists. rewrite Hv. rewrite swt_app, swt_cons in Hp1, Hp2. cbn in Hp1, Hp2.
    unfold swt in *. destruct HN as [HN|HN]; [lia|]. specialize (Hp2 HN). lia.
  - destruct IH as (c & b & Ht & Hc & Hb & Hf). destruct (decide (t' = t)) as [->|Hne].
    + assert (Hnr : forall o, ~ returned t k st w o).
      { intros o Ho. apply (Hn eq_refl _ Ho). exists [FRet o]. split; [reflexivity|]. intros f Hfe. apply elem_of_list_singleton in Hfe. subst. reflexivity. }
      destruct (Hstep w w' fail c b n Ht Hc Hb Hf Hnr Hs 0 (or_introl eq_refl)) as (c' & b' & H').
      exists c', b'. rewrite Nat.add_0_r in H'. exact H'.
    + destruct (step_trans _ _ _ _ _ Hs) as (st0 & w1 & st1 & Ht1 & _).
      destruct (step_inv _ _ _ _ _ _ Hs Ht1) as (w2 & st2 & D & L & Htr & _ & HD & _ & _ & _ & _ & _ & _ & Hthr).
      exists c, b. rewrite Hthr, list_lookup_insert_ne by auto. auto.
  - destruct IH as (c & b & Ht' & Hc & Hb & Hf). rewrite Ht in Ht'. injection Ht' as ->. eapply Hstep; eauto.
Qed.
Lemma made_one e ps t op k st w0 w n : reachable e ps w0 -> (forall pos, op <> ODeref pos) -> made e t op k st w0 w n -> n <= 1.
Proof. intros Hr Hnd H. destruct (made_bound _ _ _ _ _ _ _ _ _ 1 Hr Hnd (or_introl (le_n 1)) H) as (c & b & _ & _ & _ & Hb). lia. Qed.
Lemma made_none e ps t op k st w0 w n : reachable e ps w0 -> (forall pos, op <> ODeref pos) -> ~ may_make w0 op -> made e t op k st w0 w n -> n = 0.
Proof. intros Hr Hnd Hm H. destruct (made_bound _ _ _ _ _ _ _ _ _ 0 Hr Hnd (or_intror Hm) H) as (c & b & _ & _ & _ & Hb). lia. Qed.
(** Every call in progress is described. *)
Lemma made_ex e ps t op k st w0 w : reachable e ps w0 -> (forall pos, op <> ODeref pos) -> in_call e t op k st w0 w -> exists n, made e t op k st w0 w n.
Proof.
  intros Hr0 Hnd H. induction H as [fail w Ht Hs|t' fail w w' H (n & IH) Hn Hs]; [eexists; econstructor; eauto|].
  destruct (decide (t' = t)) as [->|Hne]; [|eexists; eapply D_other; eauto; congruence].
  destruct (in_call_stack _ _ _ _ _ _ _ _ Hr0 Hnd H) as (_ & c & _ & Ht). destruct (existsb client_frame c) eqn:He.
  - apply existsb_exists in He as (f & Hf & Hcf). eexists. eapply D_other; eauto. intros _ stk Ht' (c' & -> & Hall). rewrite Ht in Ht'. injection Ht' as Ht'.
    apply app_inv_tail in Ht'. subst c'. rewrite Hall in Hcf by (rewrite elem_of_list_In; auto). discriminate.
  - eexists. eapply D_own; [exact IH|exact Ht| |intros o; apply Hn; auto|exact Hs]. exists c. split; [reflexivity|]. intros f Hf.
    destruct (client_frame f) eqn:Hcf; [|auto]. exfalso. apply not_true_iff_false in He. apply He. apply existsb_exists. exists f. rewrite <- elem_of_list_In. auto.
Qed.
