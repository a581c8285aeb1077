(** * The tests and examples pass *)
From Verif Require Export RepoTests Reach InvSig.

Lemma run_app e w sc1 sc2 : run e w (sc1 ++ sc2) = match run e w sc1 with inl w' => run e w' sc2 | inr u => inr u end.
Proof. revert w. induction sc1 as [|[t m] sc1 IH]; intros w; cbn; [reflexivity|]. destruct (step e w t m); auto. Qed.

(** Schedules of one thread differ only in their length. *)
Definition turns (sc : sched) : nat := length (List.filter (fun x => Nat.eqb (fst x) 0) sc).
Lemma step_threads e w t m w' : step e w t m = SOk w' -> length (w_thr w') = length (w_thr w).
Proof.
  intros H. unfold step in H. destruct (w_thr w !! t) as [st|] eqn:Ht; [|discriminate].
  destruct (lstep e w t m st) as [w1 st1| | |] eqn:Hl; try discriminate. injection H as <-.
  assert (Hs : step e w t m = SOk (reap e w w1 t st1)) by (unfold step; rewrite Ht, Hl; reflexivity).
  destruct (step_inv _ _ _ _ _ _ Hs Ht) as (w2 & st2 & D & L & _ & _ & _ & _ & _ & _ & _ & _ & _ & ->). apply insert_length.
Qed.
Lemma run_one_thread e sc : forall w, length (w_thr w) = 1 -> memory_suffices sc -> run e w sc = run e w (one (turns sc)).
Proof.
  induction sc as [|[t m] sc IH]; intros w Hw Hm; [reflexivity|]. apply Forall_cons in Hm as [Hm1 Hm]. cbn in Hm1. subst m.
  destruct t as [|t].
  - cbn. destruct (step e w 0 MOk) as [w'| | |] eqn:Hs; auto; apply IH; auto. apply step_threads in Hs. congruence.
  - cbn. unfold step. rewrite lookup_ge_None_2 by lia. apply IH; auto.
Qed.
Lemma run_stopped e w o n : returns w o -> run e w (one n) = inl w.
Proof.
  intros H. induction n as [|n IH]; [reflexivity|]. cbn. unfold step. rewrite H. cbn. exact IH.
Qed.
Lemma one_add n m : one (n + m) = one n ++ one m.
Proof. apply repeat_app. Qed.
Lemma passes_by e p n (Q : world -> Prop) (b : world -> bool) : (forall w, b w = true -> Q w) ->
  match run e (init [p]) (one n) with inl w => match w_thr w with [[FRet (OutBool true)]] => b w | _ => false end | inr _ => false end = true ->
  passes e p Q.
Proof.
  intros Hb H. destruct (run e (init [p]) (one n)) as [w|] eqn:Hr; [|discriminate].
  assert (Hw : returns w (OutBool true) /\ b w = true).
  { unfold returns. destruct (w_thr w) as [|[|f st] thr]; try discriminate. destruct f; try discriminate. destruct o; try discriminate. destruct b0; try discriminate.
    destruct st; [|discriminate]. destruct thr; [|discriminate]. auto. }
  destruct Hw as [Hw Hbw]. split.
  - exists (one n), w, (OutBool true). split; [|auto]. apply Forall_forall. intros x Hx. apply elem_of_list_In, repeat_spec in Hx. subst. reflexivity.
  - intros sc Hsc. rewrite run_one_thread by auto. set (k := turns sc).
    destruct (le_lt_dec n k) as [Hk|Hk].
    + exists w. replace k with (n + (k - n)) by lia. rewrite one_add, run_app, Hr. split; [apply run_stopped with (OutBool true); exact Hw|].
      intros o Ho. unfold returns in *. split; [congruence|auto].
    + assert (Hr' := Hr). replace n with (k + (n - k)) in Hr' by lia. rewrite one_add, run_app in Hr'.
      destruct (run e (init [p]) (one k)) as [w'|] eqn:Hk'; [|discriminate]. exists w'. split; [reflexivity|]. intros o Ho.
      rewrite (run_stopped _ _ _ _ Ho) in Hr'. injection Hr' as ->. unfold returns in *. split; [congruence|auto].
Qed.

Lemma void_tests_pass : Forall (fun p => passes (test_env true) p (fun _ => True)) void_tests.
Proof. repeat (apply Forall_cons_2; [apply (passes_by _ _ 1000 _ (fun _ => true)); [auto|vm_compute; reflexivity]|]). apply Forall_nil_2. Qed.
Lemma int_tests_pass : Forall (fun p => passes (test_env false) p (fun _ => True)) int_tests.
Proof. repeat (apply Forall_cons_2; [apply (passes_by _ _ 1000 _ (fun _ => true)); [auto|vm_compute; reflexivity]|]). apply Forall_nil_2. Qed.
Lemma example_passes e p fs n :
  match run e (init [p]) (one n) with inl w => match w_thr w with [[FRet (OutBool true)]] => bool_decide (printed w = map num fs) | _ => false end | inr _ => false end = true ->
  passes e p (fun w => printed w = map num fs).
Proof. apply passes_by. intros w H. apply bool_decide_eq_true in H. exact H. Qed.
Lemma void_examples_pass : Forall (fun x => passes (test_env true) (fst x) (fun w => printed w = map num (snd x))) void_examples.
Proof. repeat (apply Forall_cons_2; [cbn [fst snd]; apply example_passes with 1000; vm_compute; reflexivity|]). apply Forall_nil_2. Qed.
Lemma float_examples_pass : Forall (fun x => passes (test_env false) (fst x) (fun w => printed w = map num (snd x))) float_examples.
Proof. repeat (apply Forall_cons_2; [cbn [fst snd]; apply example_passes with 1000; vm_compute; reflexivity|]). apply Forall_nil_2. Qed.

(** A test with a wrong expectation does not pass. *)
Definition t_wrong := do ONewSignal None; do connect 0 void_func; OVar (VDisc 0) gives yes; OVar (VDisc 0) gives yes; pass.
Lemma wrong_fails : ~ passes (test_env true) t_wrong (fun _ => True).
Proof.
  intros [_ H]. destruct (H (one 1000)) as (w & Hr & Hw).
  { apply Forall_forall. intros x Hx. apply elem_of_list_In, repeat_spec in Hx. subst. reflexivity. }
  assert (Hf : match run (test_env true) (init [t_wrong]) (one 1000) with inl w => match w_thr w with [[FRet (OutBool false)]] => true | _ => false end | inr _ => false end = true) by (vm_compute; reflexivity).
  rewrite Hr in Hf. destruct (Hw (OutBool false)) as [Ho _]; [|discriminate Ho]. clear Hw Hr. unfold returns.
  destruct (w_thr w) as [|[|f st] thr]; try discriminate Hf. destruct f; try discriminate Hf. destruct o; try discriminate Hf. destruct b; try discriminate Hf.
  destruct st; [|discriminate Hf]. destruct thr; [|discriminate Hf]. reflexivity.
Qed.
