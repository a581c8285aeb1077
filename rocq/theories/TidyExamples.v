(** * Tidy clients: examples *)
From Verif Require Import Reach InvUse Witness TidyCase TidySafe AloneProof AloneTest.

(** ** ThreadedConnect (tests/signal_tests.cpp, 264-302) *)
(** connect_invoke (264-274): [n] rounds, each with a scoped connection to [atomic_add] and [m]
    emissions; an exception would destroy the connection on its way out.  The counter is location
    0, passed by reference; signal 0 is [s]. *)
Fixpoint emit_then (m : nat) (c : cid) (next : prog) : prog :=
  match m with
  | 0 => Do (OVar (VDestroyConn c)) (fun _ => next)
  | S m => Do (OEmit 0 [ARef 0; AVal 1]) (fun r =>
      match r with OutExn _ => Do (OVar (VDestroyConn c)) (fun _ => Ret r) | _ => emit_then m c next end)
  end.
Fixpoint connect_invoke (n m : nat) : prog :=
  match n with
  | 0 => Ret OutUnit
  | S n => Do (OConnect 0 (SrcFn (fn 1)) true) (fun r =>
      match r with OutId c => emit_then m c (connect_invoke n m) | _ => Ret r end)
  end.
(** The body of the test up to the threads, which begin when it is done; [add_env] (AloneTest.v)
    has the callable. *)
Definition connect_main (n m : nat) : prog :=
  Do (ONewSignal None) (fun _ => Do (OVar (VNewLoc 0)) (fun _ =>
    bindp (connect_invoke n m) (fun _ => Do (OEmit 0 [ARef 0; AVal 1]) (fun _ => Ret OutUnit)))).

(** What the threads share. *)
Definition shared : list thing := [TSig 0; TLoc 0].
Definition no_caps (c : callable) : list thing := [].

Lemma add_tidy : tidy_env add_env shared no_caps.
Proof.
  split; [constructor|]. split; [|split; [|split; [|split]]].
  - intros r c args. constructor. reflexivity.
  - intros k n. constructor. exact I.
  - intros ty x y. constructor. exact I.
  - discriminate.
  - discriminate.
Qed.
Lemma add_lockless : lockless_env add_env.
Proof. split; [constructor|discriminate]. Qed.
Notation Tidy := (tidy add_env shared no_caps Main).
Lemma tidy_emits m c own next : TConn c ∈ own -> Tidy [] next -> Tidy own (emit_then m c next).
Proof.
  revert own. induction m as [|m IH]; intros own Hc Hn; cbn.
  - apply (Tidy_do _ _ _ _ _ false); [left; exact Hc|]. intros r _. apply tidy_nil. exact Hn.
  - apply (Tidy_do _ _ _ _ _ false).
    + split; [apply K_shared; left|]. repeat constructor.
    + assert (Hc' : forall r, TConn c ∈ gained false own (OEmit 0 [ARef 0; AVal 1]) r ++ left own (OEmit 0 [ARef 0; AVal 1])) by (intros r; apply elem_of_app; right; exact Hc).
      intros r _. destruct r; try (apply IH; [apply Hc'|exact Hn]).
      apply (Tidy_do _ _ _ _ _ false); [left; apply Hc'|]. intros r _. constructor. exact I.
Qed.
Lemma tidy_connect_invoke n m : Tidy [] (connect_invoke n m).
Proof.
  induction n as [|n IH]; cbn; [constructor; exact I|]. apply (Tidy_do _ _ _ _ _ false); [split; [apply K_shared; left|constructor]|].
  intros r _. destruct r; try (constructor; exact I). apply tidy_emits; [left|exact IH].
Qed.

(** The threads begin in any state in which the signal and the counter live. *)
Lemma connect_settled ps w0 : reachable add_env ps w0 -> (forall s1 s2, EMoveSig s1 s2 ∉ w_log w0) -> signal_lives w0 0 -> is_Some (v_store (w_vars w0) !! 0) ->
  (forall t st, w_thr w0 !! t = Some st -> (exists o, st = [FRet o]) \/ exists n m, st = [FProg (connect_invoke n m)]) ->
  settled add_env shared no_caps ps (fun _ => []) w0.
Proof.
  intros Hr Hm Hs Hl Ht. constructor; try (intros; match goal with H : _ ∈ [] |- _ => inversion H end); auto.
  - intros t st Hst. destruct (Ht t st Hst) as [H|(n & m & ->)]; [left; exact H|right]. eexists. split; [reflexivity|apply tidy_connect_invoke].
  - intros th Hth. unfold shared in Hth. apply elem_of_cons in Hth as [->|Hth]; [split; [exact Hs|discriminate]|].
    apply elem_of_list_singleton in Hth as ->. split; [exact Hl|discriminate].
  - intros l r th _ Hth. inversion Hth.
  - intros u r i th _ _ Hth. inversion Hth.
Qed.
Theorem threaded_connect ps w0 sc : reachable add_env ps w0 -> (forall s1 s2, EMoveSig s1 s2 ∉ w_log w0) -> signal_lives w0 0 -> is_Some (v_store (w_vars w0) !! 0) ->
  (forall t st, w_thr w0 !! t = Some st -> (exists o, st = [FRet o]) \/ exists n m, st = [FProg (connect_invoke n m)]) ->
  (forall t m, (t, m) ∈ sc -> m = MOk) ->
  exists w, run add_env w0 sc = inl w /\ ((forall t st, w_thr w !! t = Some st -> finished w t) \/ exists t w', step add_env w t MOk = SOk w').
Proof.
  intros Hr Hm Hs Hl Ht Hsc. pose proof (connect_settled ps w0 Hr Hm Hs Hl Ht) as H0. eapply tidy_with_memory; eauto using add_tidy, add_lockless.
Qed.
(** The threads of the test, with two rounds of three emissions in the main thread; the other
    threads have any number. *)
Definition connect_threads (n m : nat) : list prog := connect_main 2 3 :: replicate 10 (connect_invoke n m).
Lemma connect_runs p : exists w0, run add_env (init (connect_main 2 3 :: replicate 10 p)) (one 200) = inl w0 /\
  (length (slots_called (w_log w0)), slots_of w0 0, sg_alive <$> w_sigs w0, v_store (w_vars w0), forallb (fun ev => match ev with EMoveSig _ _ => false | _ => true end) (w_log w0)) = (6, [], [true], [0%Z], true) /\
  w_thr w0 = [FRet OutUnit] :: replicate 10 [FProg p].
Proof.
  destruct (run add_env (init (connect_main 2 3 :: replicate 10 p)) (one 200)) as [w0|u] eqn:E; [|vm_compute in E; discriminate].
  exists w0. split; [reflexivity|]. vm_compute in E. injection E as <-. split; vm_compute; reflexivity.
Qed.
Lemma connect_begins n m : exists w0, run add_env (init (connect_threads n m)) (one 200) = inl w0 /\ finished w0 0 /\ length (slots_called (w_log w0)) = 6 /\
  slots_of w0 0 = [] /\ signal_lives w0 0 /\ is_Some (v_store (w_vars w0) !! 0) /\ (forall s1 s2, EMoveSig s1 s2 ∉ w_log w0) /\
  (forall t st, w_thr w0 !! t = Some st -> (exists o, st = [FRet o]) \/ exists n m, st = [FProg (connect_invoke n m)]).
Proof.
  destruct (connect_runs (connect_invoke n m)) as (w0 & E & Hd & Hthr). exists w0. split; [exact E|]. clear E. injection Hd as H1 H2 H3 H4 H5.
  split; [exists OutUnit; rewrite Hthr; reflexivity|]. split; [exact H1|]. split; [exact H2|]. split; [|split; [|split]].
  - destruct (w_sigs w0) as [|r [|]] eqn:Es; try discriminate. exists r. rewrite Es. split; [reflexivity|]. injection H3 as H3. exact H3.
  - rewrite H4. eexists. reflexivity.
  - intros s1 s2 Hin. rewrite forallb_forall in H5. apply elem_of_list_In in Hin. specialize (H5 _ Hin). discriminate.
  - intros t st. rewrite Hthr. destruct t as [|t]; [intros [= <-]; left; eauto|]. intros Ht. change (replicate 10 [FProg (connect_invoke n m)] !! t = Some st) in Ht.
    apply lookup_replicate in Ht as [-> _]. right. eauto.
Qed.

(** ** A client that shares one signal and keeps another *)
(** [fn 1] adds one to the location passed; [fn 2] refers to signal 0 and location 0, and emits the
    signal with the location; [fn 3] counts its calls; when [fn 2] is destroyed it sets location 0. *)
Definition add_one (args : list arg) : prog :=
  match args with
  | [ARef a] => Do (OVar (VRead a)) (fun r => match r with OutZ z => Do (OVar (VWrite a (z + 1))) (fun _ => Ret (OutZ z)) | _ => Ret (OutZ 0) end)
  | _ => Ret (OutZ 0)
  end.
Definition count_self (r : slotref) : prog :=
  Do (OSelfGet r) (fun x => match x with OutZ z => Do (OSelfSet r (z + 1)) (fun _ => Ret (OutZ z)) | _ => Ret (OutZ 0) end).
Definition keep_env : env :=
  Env false (fun _ => true) (fun _ a b => Ret (OutBool (Nat.eqb a b)))
    (fun r c args => match c_fv c with
                     | 1 => add_one args
                     | 2 => Do (OEmit 0 [ARef 0]) (fun x => match x with OutExn _ => Ret x | _ => Ret (OutZ 5) end)
                     | _ => count_self r
                     end)
    (fun _ _ => false) (fun z => z)
    (fun c => if c_fv c =? 2 then Some (Do (OVar (VWrite 0 100)) (fun _ => Ret OutUnit)) else None)
    (fun _ _ => Ret OutUnit).
Definition keep_caps (c : callable) : list thing := if c_fv c =? 2 then [TSig 0; TLoc 0] else [].
Definition on_id (r : out) (k : nat -> prog) : prog := match r with OutId n => k n | _ => Ret r end.
Definition on_zero (r : out) (k : prog) : prog := match r with OutId 0 => k | _ => Ret r end.
Definition keep_prog : prog :=
  Do (ONewSignal None) (fun r => on_zero r (Do (OVar (VNewLoc 7)) (fun r => on_zero r (
  Do (ONewSignal None) (fun r => on_id r (fun s =>
  Do (OConnect 0 (SrcFn (fn 1)) false) (fun r => on_id r (fun c1 =>
  Do (OConnect s (SrcFn (fn 2)) true) (fun r => on_id r (fun c2 =>
  Do (OConnect s (SrcFn (fn 3)) false) (fun r => on_id r (fun c3 =>
  Do (OVar (VBlocker c3)) (fun r => on_id r (fun b =>
  Do (OEmit s []) (fun _ =>
  Do (OVar (VBDestroy b)) (fun _ =>
  Do (OEmit s []) (fun _ =>
  Do (OVar (VDestroyConn c2)) (fun _ =>
  Do (OEmit s []) (fun _ =>
  Do (ODestroySignal s) (fun _ =>
  Do (OVar (VDisc c3)) (fun _ =>
  Do (OVar (VRead 0)) (fun r => Ret r)))))))))))))))))))))).

Section rules.
Context (e : env) (G : list thing) (caps : callable -> list thing) (a : role).
(** Calls that give nothing. *)
Lemma tidy_then own o k : op_ok G caps a own o -> (forall keep r, gained keep own o r = []) -> (forall r, tidy e G caps a (left own o) (k r)) -> tidy e G caps a own (Do o k).
Proof. intros Ho Hg Hk. apply (Tidy_do _ _ _ _ _ false); [exact Ho|]. intros r _. rewrite Hg. apply Hk. Qed.
(** Calls that give a variable. *)
Lemma tidy_id keep own o k : op_ok G caps a own o -> (forall r, (forall n, r <> OutId n) -> may_return e a r) ->
  (forall n, unused own (gained keep own o (OutId n)) -> tidy e G caps a (gained keep own o (OutId n) ++ left own o) (k n)) -> tidy e G caps a own (Do o (fun r => on_id r k)).
Proof.
  intros Ho Hm Hk. apply (Tidy_do _ _ _ _ _ keep); [exact Ho|]. intros r Hr. destruct r; try (constructor; apply Hm; discriminate). apply Hk. exact Hr.
Qed.
Lemma tidy_zero keep own o k : op_ok G caps a own o -> (forall r, may_return e a r) ->
  tidy e G caps a (gained keep own o (OutId 0) ++ left own o) k -> tidy e G caps a own (Do o (fun r => on_zero r k)).
Proof.
  intros Ho Hm Hk. apply (Tidy_do _ _ _ _ _ keep); [exact Ho|]. intros r Hr. destruct r as [| | |[|n]| | | | |]; try (constructor; apply Hm). exact Hk.
Qed.
End rules.

Ltac nogain := let keep := fresh in let r := fresh in intros keep r; destruct r as [|[]| | | | | | |]; reflexivity.
Ltac member := repeat first [apply elem_of_list_here | apply elem_of_list_further | apply without_elem; split; [|congruence]].
Ltac go := apply tidy_then; [|nogain|intros ?].
Lemma keep_tidy_env : tidy_env keep_env [] keep_caps.
Proof.
  split; [intros c; unfold keep_caps; destruct (_ =? _); repeat constructor|]. split; [|split; [|split; [|split]]].
  - intros r c args. cbn. unfold keep_caps.
    assert (Hc : forall own, tidy keep_env [] keep_caps (Body r) own (count_self r)).
    { intros own. go; [reflexivity|]. match goal with |- _ (match ?x with _ => _ end) => destruct x end; try (constructor; reflexivity). go; [reflexivity|]. constructor. reflexivity. }
    destruct (c_fv c) as [|[|[|n]]]; cbn [Nat.eqb]; [apply Hc| | |apply Hc].
    + destruct args as [|[z|x] [|]]; try (constructor; reflexivity). cbn.
      assert (Hx : knows [] [TLoc x] (TLoc x)) by (apply K_own; left).
      go; [exact Hx|]. match goal with |- _ (match ?x with _ => _ end) => destruct x end; try (constructor; reflexivity). go; [exact Hx|]. constructor. reflexivity.
    + cbn. go.
      * split; [apply K_own; left|]. constructor; [|constructor]. right. left. apply elem_of_list_further, elem_of_list_here.
      * match goal with |- _ (match ?x with _ => _ end) => destruct x end; constructor; reflexivity || exact I.
  - intros k n. constructor. exact I.
  - intros ty x y. constructor. exact I.
  - intros c p. cbn. unfold keep_caps. destruct (_ =? _); [|discriminate]. intros [= <-]. go; [apply K_own, elem_of_list_further, elem_of_list_here|]. constructor. discriminate.
  - discriminate.
Qed.
Lemma keep_lockless : lockless_env keep_env.
Proof.
  split; [constructor|]. intros c p. cbn. destruct (_ =? _); [|discriminate]. intros [= <-]. constructor; [exact I|constructor].
Qed.
Lemma keep_tidy : tidy keep_env [] keep_caps Main [] keep_prog.
Proof.
  unfold keep_prog.
  apply (tidy_zero _ _ _ _ false); [exact I|constructor|]. apply (tidy_zero _ _ _ _ false); [exact I|constructor|]. cbn [gained left app].
  apply (tidy_id _ _ _ _ true); [exact I|constructor|]. intros s _. cbn [gained left app].
  apply (tidy_id _ _ _ _ true); [split; [apply K_own; member|constructor]|constructor|]. intros c1 F1. cbn [gained left app].
  apply (tidy_id _ _ _ _ true); [split; [apply K_sig; member|]|constructor|].
  { constructor; [right; left; member|]. constructor; [right; left; member|constructor]. }
  intros c2 F2. cbn [gained left app].
  apply (tidy_id _ _ _ _ true); [split; [apply K_sig; member|constructor]|constructor|]. intros c3 F3. cbn [gained left app].
  assert (N : c3 <> c2) by (intros ->; eapply (F3 (TConn c2)); [left|reflexivity|left]).
  apply (tidy_id _ _ _ _ true); [apply K_own; member|constructor|]. intros b _. cbn [gained left app].
  go; [split; [apply K_sig; member|constructor]|]. cbn [left].
  go; [left; member|]. cbn [left].
  go; [split; [apply K_sig; member|constructor]|]. cbn [left].
  go; [left; member|]. cbn [left].
  go; [split; [apply K_sig; member|constructor]|]. cbn [left].
  go; [left; member|]. cbn [left].
  go; [apply K_own; member|]. cbn [left].
  go; [apply K_own; member|]. constructor. exact I.
Qed.
Lemma keep_settled : settled keep_env [] keep_caps [keep_prog] (fun _ => []) (init [keep_prog]).
Proof. apply settled_init; [reflexivity|]. constructor; [exact keep_tidy|constructor]. Qed.
Lemma keep_run : exists w, run keep_env (init [keep_prog]) (one 400) = inl w /\ finished_with w 0 (OutZ 100) /\ slots_called (w_log w) = [1; 0; 1; 0; 2; 2].
Proof.
  destruct (run keep_env (init [keep_prog]) (one 400)) as [w|u] eqn:E; [|vm_compute in E; discriminate]. exists w. vm_compute in E. injection E as <-.
  split; [reflexivity|split; vm_compute; reflexivity].
Qed.
Lemma ex_keep : tidy_env keep_env [] keep_caps /\ lockless_env keep_env /\ settled keep_env [] keep_caps [keep_prog] (fun _ => []) (init [keep_prog]) /\
  exists w, run keep_env (init [keep_prog]) (one 400) = inl w /\ finished_with w 0 (OutZ 100) /\ slots_called (w_log w) = [1; 0; 1; 0; 2; 2].
Proof. exact (conj keep_tidy_env (conj keep_lockless (conj keep_settled keep_run))). Qed.
(** Without the rules: a signal is emitted after it has been destroyed. *)
Definition untidy_prog : prog :=
  Do (ONewSignal None) (fun r => on_id r (fun s => Do (OConnect s (SrcFn (fn 1)) false) (fun r => on_id r (fun c =>
    Do (ODestroySignal s) (fun _ => Do (OEmit s []) (fun _ => Ret OutUnit)))))).
Lemma ex_untidy : run keep_env (init [untidy_prog]) (one 60) = inr UDangling /\ ~ tidy keep_env [] keep_caps Main [] untidy_prog.
Proof.
  split; [vm_compute; reflexivity|]. intros Ht.
  inversion Ht as [|keep ? ? _ H1]; subst. specialize (H1 (OutId 0)). cbn in H1.
  assert (P1 : unused [] (if keep then [TOwn 0] else [TSig 0])) by (intros th _ _ H; inversion H). specialize (H1 P1). 
  inversion H1 as [|keep2 ? ? _ H2]; subst. specialize (H2 (OutId 0)). cbn in H2.
  assert (P2 : unused ((if keep then [TOwn 0] else [TSig 0]) ++ []) [TConn 0]).
  { intros th Hth _ H. apply elem_of_list_singleton in Hth as ->. destruct keep; cbn in H; apply elem_of_list_singleton in H; discriminate. }
  specialize (H2 P2). inversion H2 as [|keep3 ? ? O3 H3]; subst. specialize (H3 OutUnit I). inversion H3 as [|keep4 ? ? O4 H4]; subst. destruct O4 as [O4 _].
  destruct keep; cbn in *.
  - inversion O4 as [? H|? H| |? H]; subst; [inversion H| |]; apply elem_of_list_In in H; vm_compute in H; intuition discriminate.
  - destruct O3 as [H|(u & [=] & _)]. apply elem_of_list_In in H. vm_compute in H. intuition discriminate.
Qed.
Lemma ex_threaded_connect n m : exists w0, run add_env (init (connect_threads n m)) (one 200) = inl w0 /\ finished w0 0 /\ length (slots_called (w_log w0)) = 6 /\
  slots_of w0 0 = [] /\ signal_lives w0 0 /\ is_Some (v_store (w_vars w0) !! 0) /\ (forall s1 s2, EMoveSig s1 s2 ∉ w_log w0) /\
  (forall t st, w_thr w0 !! t = Some st -> (exists o, st = [FRet o]) \/ exists n m, st = [FProg (connect_invoke n m)]).
Proof. exact (connect_begins n m). Qed.
