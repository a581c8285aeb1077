(** * Properties of optional<T>, optional<T&> and optional<void> *)
From Verif Require Import OptExamples.

(** C44: whatever a client does, and whatever T throws, the answers are those of variables
    that hold nothing or a value. *)
Theorem C44_behaves_like_an_option mv oracle os rs w :
  orun mv (ow0 oracle) os = Some (rs, w) -> exists vs, opt_trace mv [] os rs vs.
Proof. exact (opt_behaviour mv oracle os rs w). Qed.
Print Assumptions C44_behaves_like_an_option.

Example C44_example : exists w, orun mz (ow0 []) d_opt =
  Some ([RetV (VI 0); RetV (VI 1); RetV VU; RetV VU; RetV (VZ 0); RetV VU; RetV (VZ 5); RetV VU; RetV (VB false); RetX XAccess;
         RetV (VZ 8); RetV VU; RetV (VZ 3); RetV (VZ 0)], w).
Proof. exact ex_behaviour. Qed.
Example C44_example_with_exceptions : exists w, orun mz (ow0 [TFine; TThrow 9 9; TThrow 1 1]) [ONewVal 5; OAssignVal 0 7; OGet 0; OEmplace 0 2; OHas 0] =
  Some ([RetV (VI 0); RetX XT; RetV (VZ 9); RetX XT; RetV (VB false)], w).
Proof. exact ex_behaviour_throw. Qed.

(** If T throws nothing then the library throws nothing of T's either. *)
Theorem C44_no_invented_exceptions mv oracle os rs w :
  no_throw oracle os -> orun mv (ow0 oracle) os = Some (rs, w) -> Forall (fun r => r <> RetX XT) rs.
Proof. exact (opt_no_throw mv oracle os rs w). Qed.
Print Assumptions C44_no_invented_exceptions.

Example C44_no_throw_example : no_throw [] d_opt /\ exists rs w, orun mz (ow0 []) d_opt = Some (rs, w).
Proof. exact ex_no_throw. Qed.

(** The behaviour is undefined only where it has to be: at the first operation that uses a
    variable that does not exist or dereferences a disengaged one. *)
Theorem C44_undefined_only_by_misuse mv oracle os :
  orun mv (ow0 oracle) os = None ->
  exists os1 o os2 rs vs, os = os1 ++ o :: os2 /\ opt_trace mv [] os1 rs vs /\ ospec mv vs o = AUndef.
Proof. exact (opt_undefined mv oracle os). Qed.
Print Assumptions C44_undefined_only_by_misuse.

Example C44_undefined_example : orun mz (ow0 []) [ONew; OGet 0] = None /\ ospec mz [Some None] (OGet 0) = AUndef.
Proof. exact ex_undefined. Qed.

(** And without exceptions the answers are exactly the specified ones. *)
Theorem C44_exact mv oracle os rs vs :
  no_throw oracle os -> Forall (fun r => r <> RetX XT) rs -> opt_trace mv [] os rs vs ->
  exists w, orun mv (ow0 oracle) os = Some (rs, w).
Proof. exact (opt_exact mv oracle os rs vs). Qed.
Print Assumptions C44_exact.

Example C44_exact_example : opt_trace mz [] [ONewVal 5; OTakeValue 0; OGet 0] [RetV (VI 0); RetV (VZ 5); RetV (VZ 0)] [Some (Some 0%Z)].
Proof. exact ex_trace. Qed.

(** C45: every object is constructed, then used, then destroyed, each in its time; the
    living ones are exactly those in engaged optionals, one in each. *)
Theorem C45_lives mv oracle os rs w :
  orun mv (ow0 oracle) os = Some (rs, w) ->
  (forall o, olife o (w_ev w) <> Wrong) /\
  (forall o, olife o (w_ev w) = Alive <-> exists i, holds_obj w i o) /\
  (forall o i j, holds_obj w i o -> holds_obj w j o -> i = j) /\
  (forall i, is_engaged w i = true <-> exists o, holds_obj w i o).
Proof. exact (opt_lives mv oracle os rs w). Qed.
Print Assumptions C45_lives.

(** When all optionals are gone every object that was constructed is destroyed. *)
Theorem C45_no_leak mv oracle os rs w :
  orun mv (ow0 oracle) os = Some (rs, w) -> Forall (eq None) (w_opt w) ->
  forall o, EvCon o ∈ w_ev w -> olife o (w_ev w) = Dead.
Proof. exact (opt_no_leak mv oracle os rs w). Qed.
Print Assumptions C45_no_leak.

Example C45_example : exists rs w, orun mz (ow0 []) [ONewVal 5; ONew; OSwap 0 1; ODelete 0; ODelete 1] = Some (rs, w) /\
  Forall (eq None) (w_opt w) /\ length (w_objs w) = 3 /\ EvCon 2 ∈ w_ev w.
Proof. exact ex_lives. Qed.

(** C46: after an exception of T: no optional appears or disappears; a failed emplace leaves
    its target disengaged; a failed swap may leave the engaged one of the two disengaged;
    nothing else changes whether an optional is engaged. *)
Theorem C46_after_an_exception mv oracle os rs w op w' :
  orun mv (ow0 oracle) os = Some (rs, w) -> oexec mv op w = Throw XT w' ->
  length (w_opt w') = length (w_opt w) /\ after_exception op (is_engaged w) (is_engaged w').
Proof. exact (opt_exceptions mv oracle os rs w op w'). Qed.
Print Assumptions C46_after_an_exception.

Example C46_example : exists rs w w', orun mz (ow0 [TFine; TThrow 0 0]) [ONewVal 5] = Some (rs, w) /\
  oexec mz (OEmplace 0 7) w = Throw XT w' /\ is_engaged w 0 = true /\ is_engaged w' 0 = false.
Proof. exact ex_exceptions. Qed.

(** The exception for swap is needed: a value can be lost. *)
Theorem C46_swap_keeps_engagement_refuted :
  ~ (forall mv oracle os rs w i j w', orun mv (ow0 oracle) os = Some (rs, w) -> oexec mv (OSwap i j) w = Throw XT w' ->
  forall k, is_engaged w' k = is_engaged w k).
Proof. exact swap_loses. Qed.
Print Assumptions C46_swap_keeps_engagement_refuted.

(** "upon exception *this is always uninitialized", optional.hpp:887, does not hold of the
    representation for scalars. *)
Theorem C46_scalar_emplace_refuted :
  ~ (forall os rs w i w', trun [] os = Some (rs, w) -> texec (OEmplaceX i) w = TX XT w' ->
     exists w'', texec (OHas i) w' = TOk (VB false) w'').
Proof. exact scalar_emplace_keeps. Qed.
Print Assumptions C46_scalar_emplace_refuted.

(** C47: as long as nothing throws, the representation for scalars gives the same answers,
    undefined behaviour included. *)
Theorem C47_scalar_representation oracle os : no_throw oracle os ->
  fst <$> trun [] os = fst <$> orun id (ow0 oracle) os.
Proof. exact (opt_scalar_same oracle os). Qed.
Print Assumptions C47_scalar_representation.

Example C47_example : no_throw [] d_opt /\ exists rs, fst <$> trun [] d_opt = Some rs.
Proof. exact ex_scalar. Qed.

(** With an emplace whose argument throws it does not. *)
Theorem C47_with_exceptions_refuted : ~ (forall os, fst <$> trun [] os = fst <$> orun id (ow0 []) os).
Proof. exact scalar_differs. Qed.
Print Assumptions C47_with_exceptions_refuted.
