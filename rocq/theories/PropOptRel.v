(** * Properties of the comparison of optionals *)
From Verif Require Import OptRelProof.

(** C48: if the operators of the element type are those of a total order, then the
    operators between optionals, with nullopt and with values are all those of one total
    order, in which a disengaged optional is the least element. *)
Theorem C48_operators_agree_with_one_order {T} (r : rel T) (cmp : T -> T -> comparison) :
  total cmp -> agrees cmp (eqT r) (neT r) (ltT r) (gtT r) (leT r) (geT r) ->
  agrees (ocmp cmp) (oo_eq r) (oo_ne r) (oo_lt r) (oo_gt r) (oo_le r) (oo_ge r) /\
  agrees (fun x (_ : unit) => ocmp cmp x None) (fun x _ => on_eq x) (fun x _ => on_ne x) (fun x _ => on_lt x) (fun x _ => on_gt x) (fun x _ => on_le x) (fun x _ => on_ge x) /\
  agrees (fun (_ : unit) x => ocmp cmp None x) (fun _ x => no_eq x) (fun _ x => no_ne x) (fun _ x => no_lt x) (fun _ x => no_gt x) (fun _ x => no_le x) (fun _ x => no_ge x) /\
  agrees (fun x v => ocmp cmp x (Some v)) (ov_eq r) (ov_ne r) (ov_lt r) (ov_gt r) (ov_le r) (ov_ge r) /\
  agrees (fun v x => ocmp cmp (Some v) x) (vo_eq r) (vo_ne r) (vo_lt r) (vo_gt r) (vo_le r) (vo_ge r).
Proof. exact (all_agree r cmp). Qed.
Print Assumptions C48_operators_agree_with_one_order.

Theorem C48_the_order_is_total {A} (cmp : A -> A -> comparison) : total cmp -> total (ocmp cmp).
Proof. exact (ocmp_total cmp). Qed.
Print Assumptions C48_the_order_is_total.

Theorem C48_disengaged_is_least {A} (cmp : A -> A -> comparison) x : ocmp cmp None x <> Gt /\ (ocmp cmp None x = Eq <-> x = None).
Proof. exact (ocmp_least cmp x). Qed.
Print Assumptions C48_disengaged_is_least.

Example C48_example : total Z.compare /\ agrees Z.compare (eqT zrel) (neT zrel) (ltT zrel) (gtT zrel) (leT zrel) (geT zrel) /\
  oo_lt zrel None (Some 3%Z) = true /\ ov_le zrel (Some 3%Z) 3%Z = true /\ vo_gt zrel 4%Z (Some 3%Z) = true.
Proof. exact ex_rel. Qed.

(** What holds for any operators of the element type. *)
Theorem C48_without_an_order {T} (r : rel T) x v :
  oo_eq r x (Some v) = ov_eq r x v /\ oo_eq r (Some v) x = vo_eq r v x /\
  oo_lt r x (Some v) = ov_lt r x v /\ oo_lt r (Some v) x = vo_lt r v x /\
  oo_eq r x None = on_eq x /\ oo_eq r None x = no_eq x /\ oo_ne r x None = on_ne x /\ oo_ne r None x = no_ne x /\
  oo_lt r x None = on_lt x /\ oo_lt r None x = no_lt x /\ oo_gt r x None = on_gt x /\ oo_gt r None x = no_gt x /\
  oo_le r x None = on_le x /\ oo_le r None x = no_le x /\ oo_ge r x None = on_ge x /\ oo_ge r None x = no_ge x.
Proof. exact (mixed_always r x v). Qed.
Print Assumptions C48_without_an_order.

(** Between an optional and a value the operator of the element type with the same name
    decides, if the optional is engaged. *)
Theorem C48_with_a_value {T} (r : rel T) x v :
  ov_eq r x v = with_value (eqT r) false left_opt (x, v) /\ ov_ne r x v = with_value (neT r) true left_opt (x, v) /\
  ov_lt r x v = with_value (ltT r) true left_opt (x, v) /\ ov_gt r x v = with_value (gtT r) false left_opt (x, v) /\
  ov_le r x v = with_value (leT r) true left_opt (x, v) /\ ov_ge r x v = with_value (geT r) false left_opt (x, v) /\
  vo_eq r v x = with_value (eqT r) false right_opt (v, x) /\ vo_ne r v x = with_value (neT r) true right_opt (v, x) /\
  vo_lt r v x = with_value (ltT r) false right_opt (v, x) /\ vo_gt r v x = with_value (gtT r) true right_opt (v, x) /\
  vo_le r v x = with_value (leT r) false right_opt (v, x) /\ vo_ge r v x = with_value (geT r) true right_opt (v, x).
Proof. exact (value_ops r x v). Qed.
Print Assumptions C48_with_a_value.

Example C48_value_example : ov_ne drel (Some NaN) NaN = true /\ vo_ge drel NaN (Some NaN) = false /\ vo_ge drel NaN None = true.
Proof. exact ex_value_ops. Qed.

(** Whatever the operators of the element type do: between two engaged optionals == and != ask
    its ==, and the other four ask its <. *)
Theorem C48_between_engaged_optionals {T} (r : rel T) a b :
  oo_eq r (Some a) (Some b) = eqT r a b /\ oo_ne r (Some a) (Some b) = negb (eqT r a b) /\
  oo_lt r (Some a) (Some b) = ltT r a b /\ oo_gt r (Some a) (Some b) = ltT r b a /\
  oo_le r (Some a) (Some b) = negb (ltT r b a) /\ oo_ge r (Some a) (Some b) = negb (ltT r a b).
Proof. exact (both_engaged r a b). Qed.
Print Assumptions C48_between_engaged_optionals.
(** The type of the examples: numbers compare as numbers, and with NaN only != holds. *)
Example C48_numbers : agrees Z.compare (fun a b => eqT drel (Num a) (Num b)) (fun a b => neT drel (Num a) (Num b)) (fun a b => ltT drel (Num a) (Num b))
  (fun a b => gtT drel (Num a) (Num b)) (fun a b => leT drel (Num a) (Num b)) (fun a b => geT drel (Num a) (Num b)).
Proof. exact drel_num. Qed.
Example C48_nan x : Forall (fun f => f x NaN = false /\ f NaN x = false) [eqT drel; ltT drel; gtT drel; leT drel; geT drel] /\ neT drel x NaN = true /\ neT drel NaN x = true.
Proof. exact (drel_nan x). Qed.

(** For a partial order (NaN) <= and >= between optionals and with a value differ. *)
Theorem C48_partial_orders_refuted :
  ~ (forall (T : Type) (r : rel T) x v, oo_le r x (Some v) = ov_le r x v) /\
  ~ (forall (T : Type) (r : rel T) x v, oo_ge r x (Some v) = ov_ge r x v) /\
  ~ (forall (T : Type) (r : rel T) x v, oo_ge r (Some v) x = vo_ge r v x).
Proof. exact nan_differs. Qed.
Print Assumptions C48_partial_orders_refuted.
