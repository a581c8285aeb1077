(** * Tidy clients never meet undefined behaviour: the steps *)
From Verif Require Import Reach InvSlot InvDeath InvRem InvUse InvFault InvSig InvOp.
From Verif Require Export TidyBase.

Section vops.
Context (G : list thing) (caps : callable -> list thing).
Context (w : world) (t : tid) (own : list thing) (v : vop) (keep : bool).
Context (PC PB : nat -> lid -> Prop) (K : lid -> Prop).
Hypothesis Hok : vop_ok G caps own v.
Hypothesis HC : forall c r l, v_conns (w_vars w) !! c = Some r -> cn_slot r = Some l -> PC c l.
Hypothesis HB : forall b r l, v_blks (w_vars w) !! b = Some r -> bk_slot r = Some l -> PB b l.
Hypothesis HkC : forall c l, knows G own (TConn c) -> PC c l -> K l.
Hypothesis HkB : forall b l, has own (TBlk b) -> PB b l -> K l.
Hypothesis HhC : forall c l, has own (TConn c) -> K l -> PC c l.
Hypothesis HhB : forall b l, has own (TBlk b) -> K l -> PB b l.
Hypothesis HnC : forall o l, TConn (length (v_conns (w_vars w))) ∈ gained keep own (OVar v) o -> K l -> PC (length (v_conns (w_vars w))) l.
Hypothesis HnB : forall o l, TBlk (length (v_blks (w_vars w))) ∈ gained keep own (OVar v) o -> K l -> PB (length (v_blks (w_vars w))) l.

Lemma has_knows th : has own th -> knows G own th.
Proof. intros [H|(u & -> & H)]; [apply K_own; exact H|apply K_full, K_own; exact H]. Qed.
Lemma get_conn_K c r l : knows G own (TConn c) -> get_conn (w_vars w) c = Some r -> cn_slot r = Some l -> K l.
Proof.
  unfold get_conn. intros Hk Hg Hl. destruct (v_conns (w_vars w) !! c) as [r'|] eqn:E; [|discriminate]. destruct (cn_live r'); [|discriminate].
  injection Hg as ->. eauto.
Qed.
Lemma get_blk_K c r l : has own (TBlk c) -> get_blk (w_vars w) c = Some r -> bk_slot r = Some l -> K l.
Proof.
  unfold get_blk. intros Hk Hg Hl. destruct (v_blks (w_vars w) !! c) as [r'|] eqn:E; [|discriminate]. destruct (bk_live r'); [|discriminate].
  injection Hg as ->. eauto.
Qed.
Definition PCs (xs : list connv) : Prop := forall c r l, xs !! c = Some r -> cn_slot r = Some l -> PC c l.
Definition PBs (xs : list blkv) : Prop := forall c r l, xs !! c = Some r -> bk_slot r = Some l -> PB c l.
Lemma PCs_put d m xs : PCs xs -> (forall l, m = Some l -> PC d l) -> PCs (alter (fun r => ConnV (cn_live r) (cn_scoped r) m) d xs).
Proof.
  intros H Hm c r l Hr Hl. rewrite alter_lookup in Hr. case_decide as E; [|eauto]. subst. destruct (xs !! _) as [r0|]; [|discriminate]. cbn in Hr.
  injection Hr as <-. cbn in Hl. auto.
Qed.
Lemma PBs_put d m xs : PBs xs -> (forall l, m = Some l -> PB d l) -> PBs (alter (fun r => BlkV (bk_live r) m) d xs).
Proof.
  intros H Hm c r l Hr Hl. rewrite alter_lookup in Hr. case_decide as E; [|eauto]. subst. destruct (xs !! _) as [r0|]; [|discriminate]. cbn in Hr.
  injection Hr as <-. cbn in Hl. auto.
Qed.
Lemma PCs_kill d xs : PCs xs -> PCs (alter (fun r => ConnV false (cn_scoped r) None) d xs).
Proof.
  intros H c r l Hr Hl. rewrite alter_lookup in Hr. case_decide as E; [|eauto]. subst. destruct (xs !! _) as [r0|]; [|discriminate]. cbn in Hr.
  injection Hr as <-. discriminate.
Qed.
Lemma PBs_kill d xs : PBs xs -> PBs (alter (fun r => BlkV false None) d xs).
Proof.
  intros H c r l Hr Hl. rewrite alter_lookup in Hr. case_decide as E; [|eauto]. subst. destruct (xs !! _) as [r0|]; [|discriminate]. cbn in Hr.
  injection Hr as <-. discriminate.
Qed.
Lemma PCs_add r xs : PCs xs -> (forall l, cn_slot r = Some l -> PC (length xs) l) -> PCs (xs ++ [r]).
Proof.
  intros H Hm c r' l Hr Hl. apply lookup_app_Some in Hr as [Hr|[Hlen Hr]]; [eauto|]. destruct (c - length xs) as [|n] eqn:E; [|discriminate].
  injection Hr as <-. replace c with (length xs) by lia. auto.
Qed.
Lemma PBs_add r xs : PBs xs -> (forall l, bk_slot r = Some l -> PB (length xs) l) -> PBs (xs ++ [r]).
Proof.
  intros H Hm c r' l Hr Hl. apply lookup_app_Some in Hr as [Hr|[Hlen Hr]]; [eauto|]. destruct (c - length xs) as [|n] eqn:E; [|discriminate].
  injection Hr as <-. replace c with (length xs) by lia. auto.
Qed.
Lemma vop_conns_ok x : vars_after (exec_vop w t v) = Some x -> PCs (v_conns x).
Proof.
  intros H. assert (HC' : PCs (v_conns (w_vars w))) by exact HC.
  unfold exec_vop in H. cbv zeta in H.
  destruct v; unfold disc_res in H; repeat (dm H; try discriminate); cbn [vars_after] in H; simplify_eq;
    cbn [v_conns v_blks v_us v_objs v_store add_conn add_blk add_us put_conn put_blk put_us kill_conn kill_blk kill_us
      set_conns set_blks set_us set_objs set_store]; try exact HC';
    repeat first [exact HC' | apply PCs_kill | apply PCs_put | apply PCs_add]; rewrite ?alter_length; cbn [cn_slot]; try discriminate;
    intros l Hl; cbn [vop_ok] in Hok.
  all: try (eapply (HnC (OutId (length (v_conns (w_vars w))))); [cbn; apply elem_of_list_singleton; reflexivity|]; eapply get_conn_K with (3 := Hl); [|eassumption]; auto using has_knows; fail).
  all: try (destruct Hok as [Hok1 Hok2]; eapply HhC; [eassumption|]; eapply get_conn_K with (3 := Hl); [|eassumption]; auto using has_knows; fail).
Qed.
Lemma vop_blks_ok x : vars_after (exec_vop w t v) = Some x -> PBs (v_blks x).
Proof.
  intros H. assert (HB' : PBs (v_blks (w_vars w))) by exact HB.
  unfold exec_vop in H. cbv zeta in H.
  destruct v; unfold disc_res in H; repeat (dm H; try discriminate); cbn [vars_after] in H; simplify_eq;
    cbn [v_conns v_blks v_us v_objs v_store add_conn add_blk add_us put_conn put_blk put_us kill_conn kill_blk kill_us
      set_conns set_blks set_us set_objs set_store]; try exact HB';
    repeat first [exact HB' | apply PBs_kill | apply PBs_put | apply PBs_add]; rewrite ?alter_length; cbn [bk_slot]; try discriminate;
    intros l Hl; cbn [vop_ok] in Hok.
  all: try (eapply (HnB (OutId (length (v_blks (w_vars w))))); [cbn; apply elem_of_list_singleton; reflexivity|];
    first [eapply get_blk_K with (3 := Hl); [|eassumption]; assumption | eapply get_conn_K with (3 := Hl); [|eassumption]; auto using has_knows]; fail).
  all: try (destruct Hok as [Hok1 Hok2]; eapply HhB; [eassumption|]; eapply get_blk_K with (3 := Hl); [|eassumption]; assumption).
Qed.
Definition after_ok (l : lid) (f : frame) : Prop :=
  (exists d m, f = FAssign d m l /\ has own (TConn d) /\ conn_lives w d /\ forall l', m = Some l' -> K l') \/
  (exists d s, f = FAssignMv d s l /\ has own (TConn d) /\ has own (TConn s) /\ conn_lives w d /\ conn_lives w s) \/ f = FUnit l.
Lemma get_conn_lives c r : get_conn (w_vars w) c = Some r -> conn_lives w c.
Proof. unfold get_conn. destruct (v_conns (w_vars w) !! c) as [r'|] eqn:E; [|discriminate]. destruct (cn_live r') eqn:El; [|discriminate]. intros _. exists r'. auto. Qed.
Lemma vop_do_ok x l after : exec_vop w t v = VDo x l after -> K l /\ (after = [] \/ exists f, after = [f] /\ after_ok l f).
Proof.
  unfold exec_vop. cbv zeta. intros H.
  destruct v; unfold disc_res in H; repeat (dm H; try discriminate); simplify_eq; cbn [vop_ok] in Hok;
    (split; [match goal with Hc : cn_slot _ = Some l |- _ => eapply get_conn_K with (3 := Hc); [|eassumption] end; try (destruct Hok); auto using has_knows|]); auto; right; eexists; (split; [reflexivity|]); unfold after_ok.
  - destruct Hok. left. do 2 eexists. split; [reflexivity|]. split; [assumption|]. split; [eapply get_conn_lives; eauto|]. intros l' Hl'. eapply get_conn_K with (3 := Hl'); [|eassumption]. auto.
  - destruct Hok. right. left. do 2 eexists. split; [reflexivity|]. split; [assumption|]. split; [assumption|]. split; eapply get_conn_lives; eauto.
  - destruct Hok. left. do 2 eexists. split; [reflexivity|]. split; [assumption|]. split; [eapply get_conn_lives; eauto|]. intros l' Hl'. eapply get_conn_K with (3 := Hl'); [|eassumption]. auto using has_knows.
  - auto.
Qed.
Lemma wlock_Some m l : wlock w m = Some l -> m = Some l.
Proof. unfold wlock. destruct m as [n|]; [|discriminate]. destruct (slot_alive w n); [auto|discriminate]. Qed.
Lemma vop_eff_ok x o ef : exec_vop w t v = VOk x o ef ->
  match ef with EfNone => True | EfBlk l _ => K l | EfLog ev => forall l, held w ev = [FTmp l] -> K l end.
Proof.
  unfold exec_vop. cbv zeta. intros H.
  destruct v; unfold disc_res, blk_eff in H; repeat (dm H; try discriminate); simplify_eq; cbn [vop_ok] in Hok; auto;
    repeat match goal with H : wlock _ _ = Some _ |- _ => apply wlock_Some in H end.
  all: try (intros l' Hl'; cbn in Hl'; destruct (slot_alive w _) eqn:?; [|discriminate]; injection Hl' as <-; eapply get_conn_K; eauto using has_knows; fail).
  all: try (eapply get_conn_K; eauto using has_knows; fail).
  all: try (eapply get_blk_K; eauto; fail).
  all: try (destruct Hok; match goal with Hb : bk_slot _ = Some _ |- _ => eapply get_blk_K with (3 := Hb); [|eassumption]; assumption end).
  all: intros l' Hl'; cbn in Hl'; discriminate.
Qed.
End vops.
Lemma vop_us_ok w t v x (P : callable -> Prop) : vars_after (exec_vop w t v) = Some x ->
  (forall u r i, v_us (w_vars w) !! u = Some r -> us_impl r = Some i -> P (im_c i)) -> (forall c, v = VSlotNew c -> P c) ->
  forall u r i, v_us x !! u = Some r -> us_impl r = Some i -> P (im_c i).
Proof.
  intros H HU HN.
  pose (Us := fun xs : list usv => forall u r i, xs !! u = Some r -> us_impl r = Some i -> P (im_c i)).
  assert (Hput : forall u (f : usv -> usv) xs, Us xs -> (forall r i, xs !! u = Some r -> us_impl (f r) = Some i -> P (im_c i)) -> Us (alter f u xs)).
  { intros u f xs Hx Hm u' r' i Hr Hi. rewrite alter_lookup in Hr. case_decide as E; [|eauto]. subst. destruct (xs !! u') as [r0|] eqn:E0; [|discriminate]. cbn in Hr.
    apply (inj Some) in Hr. subst r'. eauto. }
  assert (Hadd : forall r xs, Us xs -> (forall i, us_impl r = Some i -> P (im_c i)) -> Us (xs ++ [r])).
  { intros r xs Hx Hm u' r' i Hr Hi. apply lookup_app_Some in Hr as [Hr|[Hlen Hr]]; [eauto|]. destruct (u' - length xs) as [|n] eqn:E; [|discriminate].
    apply (inj Some) in Hr. subst r'. eauto. }
  assert (Hget : forall u r i, get_us (w_vars w) u = Some r -> us_impl r = Some i -> P (im_c i)).
  { intros u r i. unfold get_us. destruct (v_us (w_vars w) !! u) as [r0|] eqn:E; [|discriminate]. destruct (us_live r0); [|discriminate]. intros [= ->]. eauto. }
  change (Us (v_us x)). assert (HU' : Us (v_us (w_vars w))) by exact HU.
  unfold exec_vop in H. cbv zeta in H.
  destruct v; unfold disc_res in H; repeat (dm H; try discriminate); cbn [vars_after] in H; simplify_eq;
    cbn [v_conns v_blks v_us v_objs v_store add_conn add_blk add_us put_conn put_blk put_us kill_conn kill_blk kill_us
      set_conns set_blks set_us set_objs set_store]; try exact HU';
    repeat first [exact HU' | apply Hput | apply Hadd]; cbn [us_impl]; try discriminate; eauto.
  - intros i [= <-]. apply HN. reflexivity.
  - intros r i _ Hi. destruct (us_impl u0) as [i0|] eqn:E; [|discriminate]. injection Hi as <-. cbn. exact (Hget _ _ _ Heqo E).
  - intros r i _ Hi. destruct (us_impl u0) as [i0|] eqn:E; [|discriminate]. injection Hi as <-. cbn. exact (Hget _ _ _ Heqo E).
Qed.
