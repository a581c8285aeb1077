(** * Data races: the statements about runs, and runs *)
From Verif Require Export RaceDrop Examples.

Lemma lib_sw : forall s, sw_lib (Rel (YLock s)) (Acq (YLock s)).
Proof. constructor. Qed.
Lemma lib_cnt : forall v, sw_lib (Rel (YCount v)) (Acq (YCount v)).
Proof. constructor. Qed.

Definition off_slots (tr : list (tid * act)) : Prop := forall i x b, accesses tr i x b -> match x with LSlot _ | LObj _ => False | _ => True end.
Lemma traced_slot e ps w tr : traced e ps w tr -> off_slots tr.
Proof.
  induction 1 as [|w tr t f st w' _ IH Ht Hs]; intros i x b Hi; [destruct Hi; discriminate|].
  apply (acc_app sw_lib) in Hi as [Hi|[Hi _]]; [eapply IH; eauto|].
  destruct x as [s|v|l|l|o]; try exact I.
  - destruct (acts_off w t st w' (LSlot l) I) as [H1 H2]. destruct b; contradiction.
  - destruct (acts_off w t st w' (LObj o) I) as [H1 H2]. destruct b; contradiction.
Qed.

Lemma race_at sw uses tr i j : off_slots tr -> good sw uses tr -> race sw tr i j -> exists v,
  ~ uses /\ ((exists t u, t <> u /\ i < j /\ tr !! i = Some (t, Rd (LVec v)) /\ tr !! j = Some (u, Wr (LVec v))) \/
             (exists t u, t <> u /\ j < i /\ tr !! j = Some (t, Rd (LVec v)) /\ tr !! i = Some (u, Wr (LVec v)))).
Proof.
  intros Hoff Hg (t & u & l & a & b & Hn & Hi & Hj & Hab & H1 & H2).
  assert (Hai : accesses tr i l a) by (exists t; auto). assert (Haj : accesses tr j l b) by (exists u; auto).
  destruct (Nat.lt_total i j) as [Hlt|[->|Hlt]]; [|congruence|].
  - destruct l as [s|v|l|l|o]; [| | |exfalso; exact (Hoff _ _ _ Hai)|exfalso; exact (Hoff _ _ _ Hai)]; try (exfalso; apply H1; eapply Hg; eauto; split; cbn; auto; fail).
    destruct a; [exfalso; apply H1; eapply Hg; eauto; split; cbn; auto|]. destruct b; [|destruct Hab; discriminate].
    exists v. split; [intros U; apply H1; eapply Hg; eauto; split; cbn; auto|]. left. exists t, u. auto.
  - destruct l as [s|v|l|l|o]; [| | |exfalso; exact (Hoff _ _ _ Hai)|exfalso; exact (Hoff _ _ _ Hai)]; try (exfalso; apply H2; eapply Hg; eauto; split; cbn; tauto).
    destruct b; [exfalso; apply H2; eapply Hg; eauto; split; cbn; auto|]. destruct a; [|destruct Hab; discriminate].
    exists v. split; [intros U; apply H2; eapply Hg; eauto; split; cbn; auto|]. right. exists u, t. auto.
Qed.

Lemma destroyed_last e ps w tr i j u v (b : bool) : traced e ps w tr -> i < S j -> accesses tr i (LVec v) b ->
  tr !! j = Some (u, Rel (YCount v)) -> tr !! S j = Some (u, Wr (LVec v)) -> hb sw_lib tr i (S j).
Proof. exact (drop_ordered sw_lib False lib_sw lib_cnt (fun U => match U with end) e ps w tr i j u v b). Qed.

Lemma only_race e ps w tr i j : traced e ps w tr -> race sw_lib tr i j -> i < j ->
  exists t u v, t <> u /\ tr !! i = Some (t, Rd (LVec v)) /\ tr !! j = Some (u, Wr (LVec v)) /\ tr !! pred j <> Some (u, Rel (YCount v)).
Proof.
  intros Htr Hrace Hlt. destruct (traced_inv sw_lib False lib_sw lib_cnt (fun U => match U with end) _ _ _ _ Htr) as [_ HI].
  pose proof Hrace as Hrace'. apply (race_at _ False) in Hrace as (v & _ & [(t & u & Hn & Hl & Hi & Hj)|(t & u & Hn & Hl & Hi & Hj)]); [|lia|eapply traced_slot; eauto|apply HI].
  exists t, u, v. split; [auto|]. split; [auto|]. split; [auto|]. intros Hp. destruct j as [|j]; [lia|].
  destruct Hrace' as (_ & _ & _ & _ & _ & _ & _ & _ & _ & Hno & _). apply Hno.
  apply (destroyed_last e ps w tr i j u v false); auto. exists t. exact Hi.
Qed.

Lemma no_race_use e ps w tr i j : traced e ps w tr -> ~ race sw_use tr i j.
Proof.
  intros Htr Hrace.
  destruct (traced_inv sw_use True (fun s => SU_lib _ _ (SW_lock s)) (fun v => SU_lib _ _ (SW_count v)) (fun _ => SU_use) _ _ _ _ Htr) as [_ HI].
  apply (race_at _ True) in Hrace as (v & Hf & _); [auto|eapply traced_slot; eauto|apply HI].
Qed.

Lemma ordered_lib e ps w tr i j l (a b : bool) : traced e ps w tr -> i < j -> accesses tr i l a -> accesses tr j l b ->
  a = true \/ b = true -> (forall v, l = LVec v -> a = true) -> hb sw_lib tr i j.
Proof.
  intros Htr Hlt Hi Hj Hab Hl. destruct (traced_inv sw_lib False lib_sw lib_cnt (fun U => match U with end) _ _ _ _ Htr) as [_ HI].
  eapply (V_good _ _ _ _ HI); eauto. split; [auto|]. destruct l; auto; [left; eauto|exact (traced_slot _ _ _ _ Htr _ _ _ Hi)|exact (traced_slot _ _ _ _ Htr _ _ _ Hi)].
Qed.

(** ** Every run has its actions *)
Lemma run_traced e ps w0 tr0 sc w : traced e ps w0 tr0 -> run e w0 sc = inl w -> exists tr, traced e ps w (tr0 ++ tr).
Proof.
  revert w0 tr0. induction sc as [|[t f] sc IH]; intros w0 tr0 H0 Hr; cbn in Hr.
  - simplify_eq. exists []. rewrite app_nil_r. auto.
  - destruct (step e w0 t f) as [w1| | |] eqn:Hs; try discriminate; eauto.
    destruct (w_thr w0 !! t) as [st|] eqn:Ht; [|unfold step in Hs; rewrite Ht in Hs; discriminate].
    destruct (IH w1 _ (R_step _ _ _ _ _ _ _ _ H0 Ht Hs) Hr) as [tr Htr]. rewrite <- app_assoc in Htr. eauto.
Qed.
Lemma reach_traced e ps w : reachable e ps w -> exists tr, traced e ps w tr.
Proof. intros [sc Hsc]. destruct (run_traced e ps _ _ _ _ (R_init e ps) Hsc) as [tr H]. eauto. Qed.

(** ** Computing the actions of a run *)
Fixpoint trace_run (e : env) (w : world) (sc : list (tid * mem)) (tr : list (tid * act)) : option (list (tid * act)) :=
  match sc with
  | [] => Some tr
  | (t, f) :: sc =>
      match step e w t f with
      | SOk w' => trace_run e w' sc (tr ++ ((fun a => (t, a)) <$> acts w t (default [] (w_thr w !! t)) w'))
      | SBlocked | SDone => trace_run e w sc tr
      | SUB _ => None
      end
  end.
Lemma trace_run_traced e ps sc w0 tr0 tr : traced e ps w0 tr0 -> trace_run e w0 sc tr0 = Some tr -> exists w, traced e ps w tr.
Proof.
  revert w0 tr0. induction sc as [|[t f] sc IH]; intros w0 tr0 H0 Hr; cbn in Hr; [simplify_eq; eauto|].
  destruct (step e w0 t f) as [w1| | |] eqn:Hs; try discriminate; eauto.
  destruct (w_thr w0 !! t) as [st|] eqn:Ht; [|unfold step in Hs; rewrite Ht in Hs; discriminate].
  eapply IH; [|exact Hr]. cbn. eapply R_step; eauto.
Qed.

(** ** What is not ordered *)
Local Instance sobj_dec : EqDecision sobj.
Proof. solve_decision. Defined.
Local Instance loc_dec : EqDecision loc.
Proof. solve_decision. Defined.
Definition edge (tr : list (tid * act)) (i j : nat) : bool :=
  match tr !! i, tr !! j with
  | Some (t, a), Some (u, b) =>
      Nat.eqb t u || match a, b with Rel o, Acq o' => bool_decide (o = o') | _, _ => false end
  | _, _ => false
  end.
Definition after (tr : list (tid * act)) (i : nat) : list nat :=
  fold_left (fun xs j => if existsb (fun k => Nat.ltb k j && edge tr k j) xs then xs ++ [j] else xs) (seq 0 (length tr)) [i].
Definition closed (tr : list (tid * act)) (xs : list nat) : bool :=
  forallb (fun k => forallb (fun j => implb (Nat.ltb k j && edge tr k j) (existsb (Nat.eqb j) xs)) (seq 0 (length tr))) xs.

Lemma closed_hb tr xs i j : closed tr xs = true -> hb sw_all tr i j -> i ∈ xs -> j ∈ xs.
Proof.
  intros Hc. unfold closed in Hc. rewrite forallb_forall in Hc.
  assert (Hstep : forall i j t u a b, i < j -> tr !! i = Some (t, a) -> tr !! j = Some (u, b) -> edge tr i j = true -> i ∈ xs -> j ∈ xs).
  { clear i j. intros i j t u a b Hlt Hi Hj He Hin. apply elem_of_list_In in Hin. specialize (Hc _ Hin). rewrite forallb_forall in Hc.
    specialize (Hc j). rewrite in_seq in Hc. assert (Hjl : j < length tr) by (eapply lookup_lt_Some; eauto).
    specialize (Hc ltac:(lia)). rewrite He, (proj2 (Nat.ltb_lt _ _) Hlt) in Hc. cbn in Hc. apply existsb_exists in Hc as (x & Hx & E).
    apply Nat.eqb_eq in E as <-. apply elem_of_list_In. auto. }
  induction 1 as [i j t a b Hlt Hi Hj|i j t u a b Hlt Hi Hj Hs|i j k _ IH1 _ IH2]; auto.
  - apply (Hstep _ _ _ _ _ _ Hlt Hi Hj). unfold edge. rewrite Hi, Hj, Nat.eqb_refl. reflexivity.
  - apply (Hstep _ _ _ _ _ _ Hlt Hi Hj). unfold edge. rewrite Hi, Hj. destruct Hs. rewrite bool_decide_true by auto. apply orb_true_r.
Qed.

Definition races (tr : list (tid * act)) (i j : nat) : bool :=
  match tr !! i, tr !! j with
  | Some (t, Rd l), Some (u, Wr l') =>
      negb (Nat.eqb t u) && bool_decide (l = l') && Nat.ltb i j && closed tr (after tr i) && negb (existsb (Nat.eqb j) (after tr i)) && existsb (Nat.eqb i) (after tr i)
  | _, _ => false
  end.
Lemma races_race tr i j : races tr i j = true -> race sw_all tr i j.
Proof.
  unfold races. destruct (tr !! i) as [[t []]|] eqn:Hi; try discriminate. destruct (tr !! j) as [[u []]|] eqn:Hj; try discriminate.
  rewrite !andb_true_iff, !negb_true_iff. intros (((((Hn & Hl) & Hlt) & Hc) & Hx) & Hi').
  apply bool_decide_eq_true in Hl as <-. apply Nat.eqb_neq in Hn. apply Nat.ltb_lt in Hlt.
  exists t, u, l, false, true. split; [auto|]. split; [auto|]. split; [auto|]. split; [auto|]. split.
  - intros Hb. eapply closed_hb in Hb; [|exact Hc|].
    + apply elem_of_list_In in Hb. assert (existsb (Nat.eqb j) (after tr i) = true); [|congruence].
      apply existsb_exists. exists j. rewrite Nat.eqb_refl. auto.
    + apply existsb_exists in Hi' as (x & Hx' & E). apply Nat.eqb_eq in E as <-. apply elem_of_list_In. auto.
  - intros Hb. apply hb_lt in Hb. lia.
Qed.

(** ** Runs *)

(** One thread makes a signal, connects a slot and emits; when it is done, another
    thread connects a slot. *)
Definition y1_env := wenv (fun v => []).
Definition y1_prog := seqp [ONewSignal None; OConnect 0 (SrcFn (fn 1)) false; OEmit 0 []] OutUnit.
Definition y1_other := seqp [OConnect 0 (SrcFn (fn 2)) false] OutUnit.
Definition y1_sched := sch [(0, 60); (1, 60)].
Definition y1_trace := default [] (trace_run y1_env (init [y1_prog; y1_other]) y1_sched []).
Lemma y1_traced : exists w, traced y1_env [y1_prog; y1_other] w y1_trace.
Proof. apply (trace_run_traced _ _ y1_sched (init [y1_prog; y1_other]) []); [constructor|]. vm_compute. reflexivity. Qed.

Lemma two_threads_race : ~ (forall e ps w tr i j, traced e ps w tr -> ~ race sw_all tr i j).
Proof.
  intros H. destruct y1_traced as [w Hw]. apply (H _ _ _ _ 15 25 Hw), races_race. vm_compute. reflexivity.
Qed.

(** The same, but the second thread connects while the first one is in the emission:
    it must copy the vector, and drops the old one while the emission keeps it. *)
Definition y2_sched := sch [(0, 17); (1, 60); (0, 60)].
Definition y2_trace := default [] (trace_run y1_env (init [y1_prog; y1_other]) y2_sched []).
Lemma y2_traced : exists w, traced y1_env [y1_prog; y1_other] w y2_trace.
Proof. apply (trace_run_traced _ _ y2_sched (init [y1_prog; y1_other]) []); [constructor|]. vm_compute. reflexivity. Qed.
Lemma accesses_at tr i l b t : tr !! i = Some (t, if b : bool then Wr l else Rd l) -> accesses tr i l b.
Proof. intros H. exists t. exact H. Qed.
Lemma ex_C58 : exists w tr, traced y1_env [y1_prog; y1_other] w tr /\
  accesses tr 8 (LVec 0) true /\ accesses tr 12 (LPtr 0) false /\ accesses tr 21 (LVec 0) false /\ accesses tr 23 (LPtr 0) true /\ accesses tr 32 (LVec 0) true /\
  (fst <$> tr !! 8) = Some 0 /\ (fst <$> tr !! 21) = Some 1 /\ (fst <$> tr !! 32) = Some 0.
Proof.
  destruct y2_traced as [w Hw]. exists w, y2_trace. split; [exact Hw|].
  split; [apply (accesses_at _ _ _ _ 0); vm_compute; reflexivity|].
  split; [apply (accesses_at _ _ _ _ 0); vm_compute; reflexivity|].
  split; [apply (accesses_at _ _ _ _ 1); vm_compute; reflexivity|].
  split; [apply (accesses_at _ _ _ _ 1); vm_compute; reflexivity|].
  split; [apply (accesses_at _ _ _ _ 0); vm_compute; reflexivity|].
  split; [vm_compute; reflexivity|]. split; vm_compute; reflexivity.
Qed.
Lemma ex_C58_destroyed : exists w tr, traced y1_env [y1_prog; y1_other] w tr /\
  accesses tr 21 (LVec 0) false /\ (fst <$> tr !! 21) = Some 1 /\ tr !! 31 = Some (0, Rel (YCount 0)) /\ tr !! 32 = Some (0, Wr (LVec 0)).
Proof.
  destruct y2_traced as [w Hw]. exists w, y2_trace. split; [exact Hw|].
  split; [apply (accesses_at _ _ _ _ 1); vm_compute; reflexivity|].
  split; [vm_compute; reflexivity|]. split; vm_compute; reflexivity.
Qed.
Lemma lib_all tr i j : hb sw_lib tr i j -> hb sw_all tr i j.
Proof. induction 1 as [i j t a b Hlt Hi Hj|i j t u a b Hlt Hi Hj Hs|i j k _ IH1 _ IH2]; [eapply HB_thread; eauto|eapply HB_sync; eauto; destruct Hs; constructor|eapply HB_trans; eauto]. Qed.
Lemma race_lib tr i j : race sw_all tr i j -> race sw_lib tr i j.
Proof.
  intros (t & u & l & a & b & Hn & Hi & Hj & Hab & H1 & H2). exists t, u, l, a, b.
  split; [auto|]. split; [auto|]. split; [auto|]. split; [auto|]. split; intros H; apply lib_all in H; auto.
Qed.
Lemma ex_C58_race : exists w tr, traced y1_env [y1_prog; y1_other] w tr /\ race sw_lib tr 15 25.
Proof.
  destruct y1_traced as [w Hw]. exists w, y1_trace. split; [exact Hw|]. apply race_lib, races_race. vm_compute. reflexivity.
Qed.
