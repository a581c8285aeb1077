(** * How long library code runs by itself: proofs *)
From Verif Require Export SpecBound OpHandle.

(** An upper bound for the steps of library code still to come. *)
Definition wt_crit (k : crit) : nat := match k with KErase _ => 1 | _ => 0 end.
Definition wt_frame (f : frame) : nat :=
  match f with
  | FRet _ => 1
  | FDeref _ _ _ | FMkConn _ | FAssign _ _ _ | FAssignMv _ _ _ | FUnit _ | FRemRet _ | FTmp _ | FEmit _ _ _ _ | FCallRet => 1
  | FUnlock _ _ => 2
  | FErase _ _ _ _ _ _ | FEraseCmp _ _ _ _ _ _ => 3
  | FBody _ _ k => 3 + wt_crit k
  | FWrite _ k => 4 + wt_crit k
  | FLock _ k => 5 + wt_crit k
  | FDisc _ => 7
  | FSlot _ g _ _ _ _ => match g with SBlk => 7 | SExp => 6 | SConn => 5 | SDisp => 4 | SPin | SDead => 3 | SCall => 2 | SRun => 2 end
  | _ => 0
  end.
Fixpoint left_lib (st : list frame) : nat :=
  match st with
  | [] | FProg _ :: _ | FWait _ :: _ | FDtor _ :: _ => 0
  | FDeref _ _ _ :: _ => 1
  | f :: st => wt_frame f + left_lib st
  end.
Lemma waits_left r : waits r = true -> left_lib r = 0.
Proof. destruct r as [|[] r]; cbn; auto; discriminate. Qed.
Lemma left_bound st : AT adj st -> is_active st -> left_lib st <= 8.
Proof.
  assert (Hw : forall k, crit_below k [] -> False) by (intros []; cbn; try discriminate; auto).
  assert (Hd : forall l r, AT adj r -> discs l r -> left_lib r <= 1).
  { intros l r Ha H. destruct r as [|[] r]; cbn in H; try contradiction; cbn; try lia; destruct Ha as [Ha _]; cbn in Ha; rewrite (waits_left _ Ha); lia. }
  assert (Hc : forall k r, AT adj r -> crit_below k r -> wt_crit k + left_lib r <= 2).
  { intros k r Ha H. destruct k; cbn in H; cbn [wt_crit]; try (rewrite (waits_left _ H); lia).
    - destruct r as [|[] r]; try contradiction. destruct Ha as [Ha _]. cbn in Ha |- *. rewrite (waits_left _ Ha). lia.
    - destruct r as [|[] r]; try contradiction. destruct Ha as [Ha Hb]. cbn in Ha |- *. specialize (Hd _ _ Hb Ha). lia. }
  assert (Hu : forall o r, AT adj r -> unlock_below o r -> left_lib r <= 2).
  { intros o r Ha H. destruct r as [|[] r]; cbn in H; try contradiction; cbn; try lia; destruct Ha as [Ha Hb]; cbn in Ha.
    - rewrite (waits_left _ Ha). lia.
    - specialize (Hd _ _ Hb Ha). lia. }
  assert (He : forall r, AT adj r -> match r with FDeref _ _ _ :: _ | FCallRet :: _ => True | _ => False end -> left_lib r <= 1).
  { intros r Ha H. destruct r as [|[] r]; cbn in H; try contradiction; cbn; destruct Ha as [Ha Hb]; cbn in Ha.
    - lia.
    - rewrite (waits_left _ Ha). lia. }
  assert (Hs : forall r g args pin eid start rest, adj (FSlot r g args pin eid start) rest -> AT adj rest -> left_lib rest <= 1).
  { intros r g args pin eid start rest Ha Hb. apply He; [auto|]. cbn in Ha. destruct r, eid, rest as [|[] rest]; try contradiction; auto. }
  assert (Hr : forall r, AT adj r -> runs r = true -> left_lib r <= 4).
  { intros r Ha H. destruct r as [|f r]; cbn; [lia|]. destruct f; cbn in H; try discriminate; cbn [wt_frame]; try lia; destruct Ha as [Ha Hb].
    - cbn in Ha. rewrite (waits_left _ Ha). lia.
    - cbn in Ha. rewrite (waits_left _ Ha). lia.
    - specialize (Hs _ _ _ _ _ _ _ Ha Hb). destruct g; try discriminate. lia. }
  intros Hst Hact. destruct st as [|f r]; [contradiction|]. destruct Hst as [Ha Hb]. cbn in Hact. destruct f; cbn in Hact; try discriminate; cbn [left_lib wt_frame].
  - cbn in Ha. destruct Ha as [Ha|[Ha|Ha]]; [specialize (Hr _ Hb Ha); lia|specialize (Hu _ _ Hb Ha); lia|].
    destruct r as [|f r]; [contradiction|]. destruct f; try contradiction; [|cbn; destruct Hb as [Hb _]; cbn in Hb; rewrite (waits_left _ Hb); lia..|].
    all: specialize (He _ Hb); cbn beta iota in He; specialize (He I); lia.
  - lia.
  - cbn in Ha. specialize (Hd _ _ Hb Ha). lia.
  - specialize (Hc _ _ Hb Ha). lia.
  - specialize (Hc _ _ Hb Ha). lia.
  - specialize (Hc _ _ Hb Ha). lia.
  - specialize (Hu _ _ Hb Ha). lia.
  - cbn in Ha. rewrite (waits_left _ Ha). lia.
  - specialize (Hs _ _ _ _ _ _ _ Ha Hb). destruct g; lia.
Qed.
Lemma left_app D st : dtorish D -> left_lib (D ++ st) <= left_lib st.
Proof.
  intros HD. destruct D as [|f D]; [cbn; lia|]. apply Forall_cons in HD as [[[? ->]|[p ->]] _]; cbn; lia.
Qed.
Lemma trans_left e w t st w' st' : trans e w t st w' st' -> in_library st -> left_lib st' < left_lib st.
Proof.
  intros Htr Hin. destruct Htr; cbn in Hin; try contradiction; cbn [left_lib wt_frame]; try lia.
  all: try (match goal with H : advances _ _ _ _ _ _ _ |- _ => inversion H; subst; lia end).
  all: try (cbn [wt_crit]; lia).
  destruct g; lia.
Qed.
Lemma step_thread e w u fail w' : step e w u fail = SOk w' -> exists st', w_thr w' = <[u := st']> (w_thr w) /\ is_Some (w_thr w !! u).
Proof.
  intros Hs. destruct (step_trans _ _ _ _ _ Hs) as (st & w1 & st1 & Ht & _).
  destruct (step_inv _ _ _ _ _ _ Hs Ht) as (w3 & st3 & D & L & _ & _ & _ & _ & _ & _ & _ & _ & _ & Hthr). eauto.
Qed.
Lemma lib_run_left e t n w w' st : lib_run e t n w w' -> w_thr w !! t = Some st ->
  exists st', w_thr w' !! t = Some st' /\ n + left_lib st' <= left_lib st.
Proof.
  intros H. induction H as [w|n w w1 w2 st1 fail H IH Ht Hin Hst|n w w1 w2 u fail H IH Hu Hst]; intros H0.
  - exists st. split; [auto|lia].
  - destruct (IH H0) as (st' & H1 & H2). rewrite Ht in H1. injection H1 as <-.
    destruct (step_inv _ _ _ _ _ _ Hst Ht) as (w3 & st3 & D & L & Htr & _ & HD & _ & _ & _ & _ & _ & _ & Hthr).
    apply trans_left in Htr; [|auto]. pose proof (left_app D st3 HD) as Ha.
    exists (D ++ st3). rewrite Hthr, list_lookup_insert by (eapply lookup_lt_Some; eauto). split; [auto|lia].
  - destruct (IH H0) as (st' & H1 & H2). destruct (step_thread _ _ _ _ _ Hst) as (s2 & Hthr & _).
    exists st'. rewrite Hthr, list_lookup_insert_ne by auto. auto.
Qed.
Lemma lib_run_thread e t n w w' : lib_run e t n w w' -> n <> 0 -> is_Some (w_thr w !! t).
Proof.
  assert (Hb : forall w1 w2 u fail, step e w1 u fail = SOk w2 -> is_Some (w_thr w2 !! t) -> is_Some (w_thr w1 !! t)).
  { intros w1 w2 u fail Hst [s2 H2]. destruct (step_thread _ _ _ _ _ Hst) as (s3 & Hthr & Hs).
    destruct (decide (u = t)) as [->|Hne]; [auto|]. rewrite Hthr, list_lookup_insert_ne in H2 by auto. eauto. }
  assert (Hc : forall n w w', lib_run e t n w w' -> is_Some (w_thr w' !! t) -> is_Some (w_thr w !! t)).
  { intros n0 w0 w1 H. induction H; intros Hs; [auto|eauto..]. }
  intros H Hn. induction H as [w|n w w1 w2 st1 fail H IH Ht Hin Hst|n w w1 w2 u fail H IH Hu Hst]; [congruence| |auto].
  eapply Hc; [exact H|eauto].
Qed.
Lemma library_steps e ps t n w w' : reachable e ps w -> lib_run e t n w w' -> n <= 8.
Proof.
  intros Hr H. destruct (decide (n = 0)) as [->|Hn]; [lia|]. destruct (lib_run_thread _ _ _ _ _ H Hn) as [st Ht].
  destruct (lib_run_left _ _ _ _ _ _ H Ht) as (st' & _ & Hle). enough (left_lib st <= 8) by lia.
  destruct (I_adj_inv _ _ _ Hr _ _ Ht). apply left_bound; auto.
Qed.

(** The longest run of library code: assignment to a scoped connection that refers to a
    connected slot (the call itself, [disconnect], the lock, the vector, the result, the
    assignment). *)
Definition lib_b (st : list frame) : bool :=
  match st with [] | FProg _ :: _ | FRet _ :: FDtor _ :: _ => false | _ => true end.
Fixpoint lib_count (e : env) (t : tid) (n : nat) (w : world) : nat * world :=
  match n with
  | 0 => (0, w)
  | S n => match w_thr w !! t with
           | Some st => if lib_b st then match step e w t MOk with SOk w2 => let '(m, w3) := lib_count e t n w2 in (S m, w3) | _ => (0, w) end else (0, w)
           | None => (0, w)
           end
  end.
Lemma lib_count_run e t n w : lib_run e t (fst (lib_count e t n w)) w (snd (lib_count e t n w)).
Proof.
  enough (Hg : forall n m w0 w, lib_run e t m w0 w -> lib_run e t (m + fst (lib_count e t n w)) w0 (snd (lib_count e t n w))).
  { apply (Hg n 0). constructor. }
  clear. induction n as [|n IH]; intros m w0 w H; cbn [lib_count]; [rewrite Nat.add_0_r; exact H|].
  destruct (w_thr w !! t) as [st|] eqn:Ht; [|rewrite Nat.add_0_r; exact H].
  destruct (lib_b st) eqn:Hb; [|rewrite Nat.add_0_r; exact H].
  destruct (step e w t MOk) as [w2| | |] eqn:Hst; try (rewrite Nat.add_0_r; exact H).
  assert (Hin : in_library st) by (destruct st as [|[] [|[] ?]]; cbn in *; auto; discriminate).
  pose proof (IH (S m) w0 w2 (LR_own _ _ _ _ _ _ _ _ H Ht Hin Hst)) as H2.
  destruct (lib_count e t n w2) as [m' w3]. cbn in *. rewrite Nat.add_succ_r. exact H2.
Qed.
Lemma ex_C55 : exists w w', reachable x2_env [h2_prog] w /\ lib_run x2_env 0 8 w w' /\
  stack_is w 0 (fun st => match st with FDisc 1 :: FAssign 1 (Some 0) 1 :: _ => true | _ => false end) = true.
Proof.
  destruct (run_world x2_env [h2_prog] (upto x2_env h2_prog (OVar (VAssignMove 1 0)) ++ one 1)
    (fun w => bool_decide (fst (lib_count x2_env 0 30 w) = 8) &&
              stack_is w 0 (fun st => match st with FDisc 1 :: FAssign 1 (Some 0) 1 :: _ => true | _ => false end))) as (w & Hr & HP); [vm_compute; reflexivity|].
  apply andb_true_iff in HP as [H1 H2]. apply bool_decide_eq_true in H1.
  exists w, (snd (lib_count x2_env 0 30 w)). rewrite <- H1 at 1. auto using lib_count_run.
Qed.
