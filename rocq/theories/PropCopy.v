(** * C74: lists of slots are copied only under emissions *)
From Verif Require Import CopyExamples RaceExamples Witness.

(** C74.  A list of slots is made in two ways only: empty, by the construction of a signal, or as
    a copy of the list of a signal, which becomes that signal's list.  The latter happens only
    while an emission walks over the old one. *)
Theorem C74_copies_only_under_emissions e ps w t fail w' :
  reachable e ps w -> step e w t fail = SOk w' -> lists w' <> lists w ->
  (exists c k st, w_thr w !! t = Some (FProg (Do (ONewSignal c) k) :: st) /\ w_vecs w' = w_vecs w ++ [[]]) \/
  (exists s v v', copied w w' s v v' /\ walked w v).
Proof. exact (grows e ps w t fail w'). Qed.
Print Assumptions C74_copies_only_under_emissions.

Example C74_copy_example : exists w w', reachable y1_env cp_ps w /\ step y1_env w 1 MOk = SOk w' /\ lists w' <> lists w /\ walked w 0 /\
  w_vecs w = [[0]] /\ w_vecs w' = [[0]; [0]].
Proof. exact ex_C74_copy. Qed.

(** No list belongs to two signals. *)
Theorem C74_lists_not_shared e ps w s1 s2 v : reachable e ps w -> list_of w s1 v -> list_of w s2 v -> s1 = s2.
Proof. exact (one_signal e ps w s1 s2 v). Qed.
Print Assumptions C74_lists_not_shared.

Example C74_lists_example : exists w, reachable y1_env [seqp [ONewSignal None; ONewSignal None] OutUnit] w /\ list_of w 0 0 /\ list_of w 1 1.
Proof. exact ex_C74_lists. Qed.

(** The program is terminated in three ways only: a destructor of a functor throws; memory runs
    out where a signal is constructed, in a way that does not throw; or memory runs out for the
    copy of a list, and then an emission is walking over it: in disconnect, which is noexcept,
    or in a way that does not throw. *)
Theorem C74_what_terminates e ps w t fail : reachable e ps w -> step e w t fail = SUB UTerminate -> exists stk, w_thr w !! t = Some stk /\
  ((exists x d st, stk = FRet (OutExn x) :: FDtor d :: st) \/
   (exists c k st, stk = FProg (Do (ONewSignal c) k) :: st /\ fail = MAbort) \/
   (exists s c st v, stk = FWrite s c :: st /\ list_of w s v /\ walked w v /\ (fail = MAbort \/ fail = MThrow /\ exists l, c = KRem l))).
Proof. exact (terminates e ps w t fail). Qed.
Print Assumptions C74_what_terminates.

Example C74_terminate_example : exists w, reachable y1_env cp_ps w /\ step y1_env w 1 MThrow = SUB UTerminate /\ walked w 0.
Proof. exact ex_C74_terminate. Qed.

(** A call makes at most one list, the client code it runs aside. *)
Theorem C74_at_most_one_per_call e ps t op k st w0 w n :
  reachable e ps w0 -> (forall pos, op <> ODeref pos) -> made e t op k st w0 w n -> n <= 1.
Proof. exact (made_one e ps t op k st w0 w n). Qed.
Print Assumptions C74_at_most_one_per_call.

Example C74_one_example : exists k st w0 w, reachable y1_env cp_ps w0 /\ made y1_env 1 (OConnect 0 (SrcFn (fn 2)) false) k st w0 w 1.
Proof. exact ex_C74_one. Qed.

(** A call of another operation than construction of a signal, connect, disconnect and
    disconnect(f) makes none: emission does not copy the list. *)
Theorem C74_others_make_none e ps t op k st w0 w n :
  reachable e ps w0 -> (forall pos, op <> ODeref pos) -> ~ may_make w0 op -> made e t op k st w0 w n -> n = 0.
Proof. exact (made_none e ps t op k st w0 w n). Qed.
Print Assumptions C74_others_make_none.

Example C74_none_example : exists k st w0 w, reachable y1_env cp_ps w0 /\ made y1_env 0 (OEmit 0 []) k st w0 w 0 /\ ~ may_make w0 (OEmit 0 []).
Proof. exact ex_C74_none. Qed.

(** The count is defined for every call in progress. *)
Theorem C74_every_call_is_counted e ps t op k st w0 w :
  reachable e ps w0 -> (forall pos, op <> ODeref pos) -> in_call e t op k st w0 w -> exists n, made e t op k st w0 w n.
Proof. exact (made_ex e ps t op k st w0 w). Qed.
Print Assumptions C74_every_call_is_counted.

Example C74_counted_example : exists k st w0 w, reachable y1_env cp_ps w0 /\ in_call y1_env 1 (OConnect 0 (SrcFn (fn 2)) false) k st w0 w.
Proof. exact ex_C74_counted. Qed.
