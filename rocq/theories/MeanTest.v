(** * Meanings of the repository's threaded tests *)
From Verif Require Import Reach InvOp OpCalls TestsProof Witness.
From Verif Require Export MeanProof.

(** ThreadedCrossed (tests/signal_tests.cpp, 304-350).  Thread 1 emits signal 0 and thread 2 signal 1
    for 0, 1, ..., [n] - 1; the test has [n] = 1000000.  Simplifications: the main thread makes both
    connections, where the test has each thread make one and wait for the other; [atomic_add] adds
    to an integer the library does not touch, so [counted] sums up what it was called with.
    [cross_env] (AloneTest.v) has the callables: for an odd number they add it, for an even one
    they emit the other signal with the next number. *)
Fixpoint emit_from (i : Z) (n : nat) (s : sid) : prog :=
  match n with O => Ret OutUnit | S n => Do (OEmit s [AVal i]) (fun _ => emit_from (i + 1) n s) end.
Definition counted (tr : list call) : Z :=
  foldr (fun c sum => (match snd c with [AVal i] => if Z.odd i then i else 0 | _ => 0 end + sum)%Z) 0%Z tr.
Definition crossed_threads (n : nat) : list prog := [cross_main; emit_from 0 n 0; emit_from 0 n 1].

Lemma counted_app a b : counted (a ++ b) = (counted a + counted b)%Z.
Proof. induction a as [|x a IH]; [reflexivity|]. cbn [app counted foldr]. fold (counted (a ++ b)) (counted a). rewrite IH. lia. Qed.
Lemma emit_from_looks n : forall i s, only_looks (emit_from i n s).
Proof. induction n as [|n IH]; intros i s; cbn; constructor; auto. exact I. Qed.

(** Signal [s] has one slot, whose callable is [fn (S s)]. *)
Definition crossed (w : world) : Prop := forall s, s < 2 -> listed w s [s] None /\ takes_calls w s = Some (fn (S s)).

Lemma crossed_odd w s i : crossed w -> s < 2 -> Z.odd i = true -> means cross_env w (Some [s]) [AVal i] (combiner cross_env None 1) (OutOpt None) [(s, [AVal i])].
Proof.
  intros Hw Hs Hi. destruct (Hw s Hs) as [_ Ht]. apply (default_combiner cross_env w [s] [AVal i]). left. exists [None], [AVal i]. split; [|reflexivity].
  change [(s, [AVal i])] with ([(s, [AVal i])] ++ []). econstructor; [|constructor]. eapply sm_call; [exact Ht| |apply wr_void; reflexivity|split; [reflexivity|]].
  - cbn. rewrite Hi. constructor.
  - intros [|j] x; cbn; [intros [= <-]; reflexivity|discriminate].
Qed.
Lemma crossed_even w s i : crossed w -> s < 2 -> Z.odd i = false ->
  means cross_env w (Some [s]) [AVal i] (combiner cross_env None 1) (OutOpt None) [(s, [AVal i]); (1 - s, [AVal (i + 1)])].
Proof.
  intros Hw Hs Hi. destruct (Hw s Hs) as [_ Ht]. apply (default_combiner cross_env w [s] [AVal i]). left. exists [None], [AVal i]. split; [|reflexivity].
  match goal with |- each_called _ _ _ _ _ _ ?x => change x with (x ++ []) end. econstructor; [|constructor].
  eapply sm_call; [exact Ht| |apply wr_void; reflexivity|split; [reflexivity|]].
  - assert (E : e_body cross_env (RSlot s) (fn (S s)) [AVal i] = Do (OEmit (1 - s) [AVal (i + 1)]) (fun _ => Ret OutUnit)).
    { cbn. rewrite Hi. destruct s as [|[|s]]; [reflexivity|reflexivity|lia]. }
    rewrite E. match goal with |- means _ _ _ _ _ _ ?x => change x with (x ++ []) end.
    eapply me_emit; [apply (Hw (1 - s)); lia|apply (crossed_odd w (1 - s) (i + 1) Hw); [lia|]|constructor].
    rewrite Z.add_1_r, Z.odd_succ, <- Z.negb_odd, Hi. reflexivity.
  - intros [|j] x; cbn; [intros [= <-]; reflexivity|discriminate].
Qed.
Lemma crossed_loop w s m : crossed w -> s < 2 -> forall j, (0 <= j)%Z ->
  exists tr, means cross_env w None [] (emit_from (2 * j) (2 * m) s) OutUnit tr /\ counted tr = (4 * j * Z.of_nat m + 2 * Z.of_nat m * Z.of_nat m)%Z.
Proof.
  intros Hw Hs. induction m as [|m IH]; intros j Hj; [exists []; split; [constructor|cbn; lia]|].
  destruct (IH (j + 1)%Z ltac:(lia)) as (tr & Hm & Hc). replace (2 * S m) with (S (S (2 * m))) by lia. cbn [emit_from].
  destruct (Hw s Hs) as [Hli _]. assert (He : Z.odd (2 * j) = false) by (rewrite Z.odd_mul; reflexivity).
  assert (Ho : Z.odd (2 * j + 1) = true) by (rewrite Z.add_1_r, Z.odd_succ, <- Z.negb_odd, He; reflexivity).
  eexists (_ ++ _ ++ tr). split.
  - eapply me_emit; [exact Hli|exact (crossed_even w s _ Hw Hs He)|]. eapply me_emit; [exact Hli|exact (crossed_odd w s _ Hw Hs Ho)|].
    replace (2 * j + 1 + 1)%Z with (2 * (j + 1))%Z by lia. exact Hm.
  - rewrite !counted_app, Hc. unfold counted. cbn [foldr snd]. rewrite He, Ho. rewrite Nat2Z.inj_succ. lia.
Qed.

Lemma crossed_start p1 p2 : exists w0 o, run cross_env (init [cross_main; p1; p2]) (one 24) = inl w0 /\ w_thr w0 = [[FRet o]; [FProg p1]; [FProg p2]] /\
  crossed w0 /\ calls_in (w_log w0) = [].
Proof.
  destruct (run cross_env (init [cross_main; p1; p2]) (one 24)) as [w0|u] eqn:E; [|vm_compute in E; discriminate].
  exists w0. vm_compute in E. injection E as <-. eexists. split; [reflexivity|]. split; [vm_compute; reflexivity|]. split; [|vm_compute; reflexivity].
  intros [|[|s]] Hs; [| |lia]; (split; [eexists _, _; repeat (split; [vm_compute; reflexivity|]); vm_compute; reflexivity|vm_compute; reflexivity]).
Qed.

Lemma counted_mine new : Forall (fun ev => exists t, t < 3 /\ thread_of ev = Some t) new ->
  counted (calls_in new) = (counted (calls_in (mine 0 new)) + counted (calls_in (mine 1 new)) + counted (calls_in (mine 2 new)))%Z.
Proof.
  induction 1 as [|ev new (t & Ht & Hev) _ IH]; [reflexivity|].
  assert (E : forall l, counted (calls_in (ev :: l)) = (counted (calls_in [ev]) + counted (calls_in l))%Z).
  { intros l. change (ev :: l) with ([ev] ++ l). rewrite calls_in_app, counted_app. lia. }
  rewrite E, IH. destruct t as [|[|[|t]]]; [| | |lia].
  - rewrite (mine_cons 0 ev) by exact Hev. rewrite (mine_skip 1 ev), (mine_skip 2 ev) by congruence. rewrite (E (mine 0 new)). lia.
  - rewrite (mine_cons 1 ev) by exact Hev. rewrite (mine_skip 0 ev), (mine_skip 2 ev) by congruence. rewrite (E (mine 1 new)). lia.
  - rewrite (mine_cons 2 ev) by exact Hev. rewrite (mine_skip 1 ev), (mine_skip 0 ev) by congruence. rewrite (E (mine 2 new)). lia.
Qed.

Lemma crossed_meaning w0 m o : crossed w0 -> w_thr w0 = [[FRet o]; [FProg (emit_from 0 (2 * m) 0)]; [FProg (emit_from 0 (2 * m) 1)]] -> meaningful cross_env w0.
Proof.
  intros Hw E t st. rewrite E. revert t st. apply all3; [left; eauto| |].
  - right. destruct (crossed_loop w0 0 m Hw ltac:(lia) 0%Z ltac:(lia)) as (tr & Hm & _). exists (emit_from 0 (2 * m) 0), OutUnit, tr. split; [reflexivity|]. split; [apply emit_from_looks|exact Hm].
  - right. destruct (crossed_loop w0 1 m Hw ltac:(lia) 0%Z ltac:(lia)) as (tr & Hm & _). exists (emit_from 0 (2 * m) 1), OutUnit, tr. split; [reflexivity|]. split; [apply emit_from_looks|exact Hm].
Qed.

Lemma crossed_counts m sc :
  match run cross_env (init (crossed_threads (2 * m))) (one 24 ++ sc) with
  | inl w => (forall t, t < 3 -> exists o, finished_with w t o) -> counted (calls_in (w_log w)) = (4 * Z.of_nat m * Z.of_nat m)%Z
  | inr _ => False
  end.
Proof.
  unfold crossed_threads. destruct (crossed_start (emit_from 0 (2 * m) 0) (emit_from 0 (2 * m) 1)) as (w0 & o & Hrun0 & Hthr & Hw & Hno).
  rewrite run_app, Hrun0. assert (Hr : reachable cross_env (crossed_threads (2 * m)) w0) by (exists (one 24); exact Hrun0).
  pose proof (crossed_meaning w0 m o Hw Hthr) as Hme. pose proof (meaningful_lookers _ _ Hme) as H0.
  destruct (run cross_env w0 sc) as [w|u] eqn:Hrun; [|exact (meaningful_defined _ _ _ _ _ cross_looks Hr Hme Hrun)].
  intros Hfin. destruct (events_of_threads _ _ w0 sc w cross_looks Hr H0 Hrun) as (new & Hl & Hev). rewrite Hthr in Hev. cbn in Hev.
  rewrite Hl, calls_in_app, Hno, app_nil_l. rewrite (counted_mine new Hev).
   assert (E0 : counted (calls_in (mine 0 new)) = 0%Z).
  { destruct (as_if_alone _ _ w0 sc w 0 [FRet o] cross_looks Hr H0 ltac:(rewrite Hthr; reflexivity) Hrun) as (n0 & wt & evs & Hn & (new1 & Hl1 & He) & (new2 & Hl2 & He2) & _).
    rewrite (alone_stopped cross_env w0 0 o n0) in Hn by (unfold finished_with; rewrite Hthr; reflexivity). injection Hn as <-.
    rewrite Hl in Hl1. apply app_inv_tail in Hl1. subst new1. change (w_log w0) with ([] ++ w_log w0) in Hl2 at 1. apply app_inv_tail in Hl2. subst new2. cbn in He2. subst evs.
    destruct (mine 0 new); [reflexivity|discriminate]. }
  assert (E : forall s, s < 2 -> w_thr w0 !! S s = Some [FProg (emit_from 0 (2 * m) s)] -> counted (calls_in (mine (S s) new)) = (2 * Z.of_nat m * Z.of_nat m)%Z).
  { intros s Hs Ht. destruct (Hfin (S s) ltac:(lia)) as [o1 Ho1].
    destruct (finished_means _ _ w0 sc w (S s) _ o1 cross_looks Hr H0 Ht Hrun Ho1) as (new1 & Hl1 & Hm1). rewrite Hl in Hl1. apply app_inv_tail in Hl1. subst new1.
    destruct (crossed_loop w0 s m Hw Hs 0%Z ltac:(lia)) as (tr & Hm & Hc). destruct (means_unique _ _ _ _ _ _ _ Hm _ _ Hm1) as [_ ->]. rewrite Hc. lia. }
  rewrite E0, (E 0), (E 1) by (auto with lia; rewrite Hthr; reflexivity). lia.
Qed.
(** The test itself: 1000000 emissions in each thread, and the number it expects. *)
Lemma crossed_test sc :
  match run cross_env (init (crossed_threads (2 * Z.to_nat 500000))) (one 24 ++ sc) with
  | inl w => (forall t, t < 3 -> exists o, finished_with w t o) -> counted (calls_in (w_log w)) = 1000000000000%Z
  | inr _ => False
  end.
Proof.
  pose proof (crossed_counts (Z.to_nat 500000) sc) as H. destruct (run _ _ _) as [w|u]; [|exact H].
  intros Hf. rewrite (H Hf), Z2Nat.id by lia. reflexivity.
Qed.
Lemma crossed_finishes m : exists k, forall sc, rounds 3 k sc ->
  exists w, run cross_env (init (crossed_threads (2 * m))) (one 24 ++ sc) = inl w /\ forall t, t < 3 -> exists o, finished_with w t o.
Proof.
  unfold crossed_threads. destruct (crossed_start (emit_from 0 (2 * m) 0) (emit_from 0 (2 * m) 1)) as (w0 & o & Hrun0 & Hthr & Hw & Hno).
  assert (Hr : reachable cross_env (crossed_threads (2 * m)) w0) by (exists (one 24); exact Hrun0).
  destruct (meaningful_finishes _ _ w0 cross_looks Hr (crossed_meaning w0 m o Hw Hthr)) as [k Hk]. rewrite Hthr in Hk. cbn in Hk.
  exists k. intros sc Hsc. destruct (Hk sc Hsc) as (w & Hrun & Hf). exists w. split; [rewrite run_app, Hrun0; exact Hrun|exact Hf].
Qed.

(** ** An example with everything *)
(** Combiner 1 adds the first two results; callable 1 returns its argument plus one; callable 2 emits
    signal 1 and returns what it got; callable 3 throws for arguments above 5. *)
Definition mean_env : env :=
  Env false (fun _ => true) (fun _ a b => Ret (OutBool (Nat.eqb a b)))
    (fun r c args => match args with
       | [AVal i] =>
           match c_fv c with
           | 1 => Ret (OutZ (i + 1))
           | 2 => Do (OEmit 1 [AVal (10 * i)]) (fun o => match o with OutOpt (Some z) => Ret (OutZ z) | OutExn x => Ret (OutExn x) | _ => Ret (OutZ 0) end)
           | _ => if Z.ltb 50 i then Ret (OutExn (UserExn 7)) else Ret (OutZ i)
           end
       | _ => Ret (OutZ 0) end)
    (fun _ _ => false) (fun z => z) (fun _ => None)
    (fun k n => Do (ODeref 0) (fun a => Do (ODeref 1) (fun b => match a, b with OutOpt (Some x), OutOpt (Some y) => Ret (OutZ (x + y)) | OutExn x, _ | _, OutExn x => Ret (OutExn x) | _, _ => Ret (OutZ 0) end))).
Definition mean_main : prog :=
  Do (ONewSignal (Some 1)) (fun _ => Do (ONewSignal None) (fun _ =>
  Do (OConnect 0 (SrcFn (fn 1)) false) (fun _ => Do (OConnect 0 (SrcFn (fn 2)) false) (fun _ => Do (OConnect 1 (SrcFn (fn 1)) false) (fun _ => Do (OConnect 1 (SrcFn (fn 3)) false) (fun _ => Ret OutUnit)))))).
Definition mean_start (p : prog) : world := match run mean_env (init [mean_main; p]) (one 60) with inl w => w | inr _ => init [] end.
Definition mean_prog (z : Z) : prog := Do (OEmit 0 [AVal z]) (fun o => Ret o).
Definition mean_end (p : prog) : world := match run mean_env (mean_start p) (alone 1 200) with inl w => w | inr _ => init [] end.
Lemma mean_looks : looking_client mean_env.
Proof.
  split.
  - intros r c args. cbn. destruct args as [|[i|a] [|? ?]]; try (constructor; fail).
    destruct (c_fv c) as [|[|[|n]]]; [destruct (Z.ltb 50 i); apply ol_ret|apply ol_ret| |destruct (Z.ltb 50 i); apply ol_ret].
    apply ol_do; [exact I|]. intros o. repeat case_match; apply ol_ret.
  - intros k n. constructor; [exact I|]. intros a. constructor; [exact I|]. intros b. cbn. repeat case_match; apply ol_ret.
Qed.
Lemma mean_case z o tr : run mean_env (init [mean_main; mean_prog z]) (one 60) = inl (mean_start (mean_prog z)) ->
  (exists r, w_thr (mean_start (mean_prog z)) = [[FRet r]; [FProg (mean_prog z)]]) ->
  run mean_env (mean_start (mean_prog z)) (alone 1 200) = inl (mean_end (mean_prog z)) ->
  finished_with (mean_end (mean_prog z)) 1 o ->
  calls_in (mine 1 (take (length (w_log (mean_end (mean_prog z))) - length (w_log (mean_start (mean_prog z)))) (w_log (mean_end (mean_prog z))))) = tr ->
  reachable mean_env [mean_main; mean_prog z] (mean_start (mean_prog z)) /\ all_lookers (mean_start (mean_prog z)) /\
  w_thr (mean_start (mean_prog z)) !! 1 = Some [FProg (mean_prog z)] /\
  run mean_env (mean_start (mean_prog z)) (alone 1 200) = inl (mean_end (mean_prog z)) /\ finished_with (mean_end (mean_prog z)) 1 o /\
  means mean_env (mean_start (mean_prog z)) None [] (mean_prog z) o tr.
Proof.
  intros H1 [r H2] H3 H4 H5. assert (Hr : reachable mean_env [mean_main; mean_prog z] (mean_start (mean_prog z))) by (exists (one 60); exact H1).
  assert (H0 : all_lookers (mean_start (mean_prog z))).
  { intros t st. rewrite H2. destruct t as [|[|t]]; cbn; [intros [= <-]; left; eauto|intros [= <-]; right; exists (mean_prog z); split; [reflexivity|]; constructor; [exact I|constructor]|destruct t; discriminate]. }
  assert (Ht : w_thr (mean_start (mean_prog z)) !! 1 = Some [FProg (mean_prog z)]) by (rewrite H2; reflexivity).
  do 5 (split; [assumption|]). destruct (finished_means _ _ _ _ _ 1 _ o mean_looks Hr H0 Ht H3 H4) as (new & Hl & Hm).
  rewrite Hl, app_length, Nat.add_sub, take_app in H5. rewrite <- H5. exact Hm.
Qed.
Lemma ex_mean : let w0 := mean_start (mean_prog 3) in let w := mean_end (mean_prog 3) in
  reachable mean_env [mean_main; mean_prog 3] w0 /\ all_lookers w0 /\ w_thr w0 !! 1 = Some [FProg (mean_prog 3)] /\
  run mean_env w0 (alone 1 200) = inl w /\ finished_with w 1 (OutZ 34) /\
  means mean_env w0 None [] (mean_prog 3) (OutZ 34) [(0, [AVal 3]); (1, [AVal 3]); (2, [AVal 30]); (3, [AVal 30])].
Proof. apply mean_case; [vm_compute; reflexivity|eexists; vm_compute; reflexivity|vm_compute; reflexivity|vm_compute; reflexivity|vm_compute; reflexivity]. Qed.
(** The exception of callable 3 passes through both emissions. *)
Lemma ex_mean_throws : let w0 := mean_start (mean_prog 6) in let w := mean_end (mean_prog 6) in
  reachable mean_env [mean_main; mean_prog 6] w0 /\ all_lookers w0 /\ w_thr w0 !! 1 = Some [FProg (mean_prog 6)] /\
  run mean_env w0 (alone 1 200) = inl w /\ finished_with w 1 (OutExn (UserExn 7)) /\
  means mean_env w0 None [] (mean_prog 6) (OutExn (UserExn 7)) [(0, [AVal 6]); (1, [AVal 6]); (2, [AVal 60]); (3, [AVal 60])].
Proof. apply mean_case; [vm_compute; reflexivity|eexists; vm_compute; reflexivity|vm_compute; reflexivity|vm_compute; reflexivity|vm_compute; reflexivity]. Qed.
Lemma ex_meaningful m p1 p2 : p1 = emit_from 0 (2 * m) 0 -> p2 = emit_from 0 (2 * m) 1 ->
  exists w0, reachable cross_env [cross_main; p1; p2] w0 /\ meaningful cross_env w0 /\ w_thr w0 !! 1 = Some [FProg p1] /\ w_thr w0 !! 2 = Some [FProg p2].
Proof.
  intros -> ->. destruct (crossed_start (emit_from 0 (2 * m) 0) (emit_from 0 (2 * m) 1)) as (w0 & o & Hrun0 & Hthr & Hw & _).
  exists w0. split; [exists (one 24); exact Hrun0|]. split; [exact (crossed_meaning w0 m o Hw Hthr)|]. rewrite Hthr. auto.
Qed.
