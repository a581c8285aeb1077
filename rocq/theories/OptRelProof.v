(** * Specification and proofs about the comparison of optionals *)
From Verif Require Export OptRel.
From Coq Require Import Lia.

(** ** Specification *)
(** A total order (up to equivalence) given by a three-way comparison. *)
Record total {A} (cmp : A -> A -> comparison) : Prop := {
  tot_opp : forall a b, cmp b a = CompOpp (cmp a b);
  tot_lt : forall a b c, cmp a b = Lt -> cmp b c = Lt -> cmp a c = Lt;
  tot_eq : forall a b c, cmp a b = Eq -> cmp a c = cmp b c }.
(** The six operators are those of the order. *)
Definition is_Eq c := match c with Eq => true | _ => false end.
Definition is_Lt c := match c with Lt => true | _ => false end.
Definition is_Gt c := match c with Gt => true | _ => false end.
Record agrees {A B} (cmp : A -> B -> comparison) (eq ne lt gt le ge : A -> B -> bool) : Prop := {
  ag_eq : forall a b, eq a b = is_Eq (cmp a b);
  ag_ne : forall a b, ne a b = negb (is_Eq (cmp a b));
  ag_lt : forall a b, lt a b = is_Lt (cmp a b);
  ag_gt : forall a b, gt a b = is_Gt (cmp a b);
  ag_le : forall a b, le a b = negb (is_Gt (cmp a b));
  ag_ge : forall a b, ge a b = negb (is_Lt (cmp a b)) }.
(** The order on options: [None] first. *)
Definition ocmp {A} (cmp : A -> A -> comparison) (x y : option A) : comparison :=
  match x, y with
  | None, None => Eq
  | None, Some _ => Lt
  | Some _, None => Gt
  | Some a, Some b => cmp a b
  end.

(** With a value on one side: the operator of the element type decides if the optional is
    engaged, whatever it does; a disengaged optional is less than every value. *)
Definition with_value {A B C : Type} (op : A -> B -> bool) (dflt : bool) (get : C -> option (A * B)) (x : C) : bool :=
  match get x with Some (a, b) => op a b | None => dflt end.
Definition left_opt {T : Type} (p : option T * T) : option (T * T) := match fst p with Some a => Some (a, snd p) | None => None end.
Definition right_opt {T : Type} (p : T * option T) : option (T * T) := match snd p with Some b => Some (fst p, b) | None => None end.

(** ** Proofs *)
Lemma ocmp_total {A} (cmp : A -> A -> comparison) : total cmp -> total (ocmp cmp).
Proof.
  intros [H1 H2 H3]. split.
  - intros [a|] [b|]; cbn; auto.
  - intros [a|] [b|] [c|]; cbn; try congruence; eauto.
  - intros [a|] [b|] [c|]; cbn; try congruence; eauto.
Qed.
Lemma ocmp_least {A} (cmp : A -> A -> comparison) x : ocmp cmp None x <> Gt /\ (ocmp cmp None x = Eq <-> x = None).
Proof. destruct x; cbn; split; try congruence; split; congruence. Qed.

Section Proofs.
Context {T : Type} (r : rel T) (cmp : T -> T -> comparison).

Lemma all_agree : total cmp -> agrees cmp (eqT r) (neT r) (ltT r) (gtT r) (leT r) (geT r) ->
  agrees (ocmp cmp) (oo_eq r) (oo_ne r) (oo_lt r) (oo_gt r) (oo_le r) (oo_ge r) /\
  agrees (fun x (_ : unit) => ocmp cmp x None) (fun x _ => on_eq x) (fun x _ => on_ne x) (fun x _ => on_lt x) (fun x _ => on_gt x) (fun x _ => on_le x) (fun x _ => on_ge x) /\
  agrees (fun (_ : unit) x => ocmp cmp None x) (fun _ x => no_eq x) (fun _ x => no_ne x) (fun _ x => no_lt x) (fun _ x => no_gt x) (fun _ x => no_le x) (fun _ x => no_ge x) /\
  agrees (fun x v => ocmp cmp x (Some v)) (ov_eq r) (ov_ne r) (ov_lt r) (ov_gt r) (ov_le r) (ov_ge r) /\
  agrees (fun v x => ocmp cmp (Some v) x) (vo_eq r) (vo_ne r) (vo_lt r) (vo_gt r) (vo_le r) (vo_ge r).
Proof.
  intros [Hop _ _] [H1 H2 H3 H4 H5 H6].
  assert (forall a b, ltT r b a = is_Gt (cmp a b)) as Hg by (intros a b; rewrite H3, (Hop a b); destruct (cmp a b); reflexivity).
  repeat (match goal with |- _ /\ _ => split end); split; intros; repeat match goal with x : option T |- _ => destruct x end; cbn;
    unfold oo_ne, oo_gt, oo_le, oo_ge; cbn; rewrite ?H1, ?H2, ?H3, ?H4, ?H5, ?H6, ?Hg, ?H3; auto.
  all: try (rewrite <- ?H3, ?Hg; auto; fail).
  all: try (rewrite (Hop _ _); destruct (cmp _ _); reflexivity).
Qed.

(** Without any assumption on the operators of the element type. *)
Lemma mixed_always x v :
  oo_eq r x (Some v) = ov_eq r x v /\ oo_eq r (Some v) x = vo_eq r v x /\
  oo_lt r x (Some v) = ov_lt r x v /\ oo_lt r (Some v) x = vo_lt r v x /\
  oo_eq r x None = on_eq x /\ oo_eq r None x = no_eq x /\ oo_ne r x None = on_ne x /\ oo_ne r None x = no_ne x /\
  oo_lt r x None = on_lt x /\ oo_lt r None x = no_lt x /\ oo_gt r x None = on_gt x /\ oo_gt r None x = no_gt x /\
  oo_le r x None = on_le x /\ oo_le r None x = no_le x /\ oo_ge r x None = on_ge x /\ oo_ge r None x = no_ge x.
Proof. destruct x; repeat split. Qed.
Lemma value_ops x v :
  ov_eq r x v = with_value (eqT r) false left_opt (x, v) /\ ov_ne r x v = with_value (neT r) true left_opt (x, v) /\
  ov_lt r x v = with_value (ltT r) true left_opt (x, v) /\ ov_gt r x v = with_value (gtT r) false left_opt (x, v) /\
  ov_le r x v = with_value (leT r) true left_opt (x, v) /\ ov_ge r x v = with_value (geT r) false left_opt (x, v) /\
  vo_eq r v x = with_value (eqT r) false right_opt (v, x) /\ vo_ne r v x = with_value (neT r) true right_opt (v, x) /\
  vo_lt r v x = with_value (ltT r) false right_opt (v, x) /\ vo_gt r v x = with_value (gtT r) true right_opt (v, x) /\
  vo_le r v x = with_value (leT r) false right_opt (v, x) /\ vo_ge r v x = with_value (geT r) true right_opt (v, x).
Proof. destruct x; repeat split. Qed.
End Proofs.

(** NaN: x <= y between optionals but not between the optional and the value; the same
    for >=. *)
Lemma nan_differs :
  ~ (forall (T : Type) (r : rel T) x v, oo_le r x (Some v) = ov_le r x v) /\
  ~ (forall (T : Type) (r : rel T) x v, oo_ge r x (Some v) = ov_ge r x v) /\
  ~ (forall (T : Type) (r : rel T) x v, oo_ge r (Some v) x = vo_ge r v x).
Proof.
  split; [|split]; intros H; specialize (H dbl drel (Some NaN) (Num 1)); discriminate H.
Qed.
(** Between two optionals that are both engaged only == and < of the element type count; which
    one, with which argument first, and whether the answer is negated. *)
Lemma both_engaged {T} (r : rel T) a b :
  oo_eq r (Some a) (Some b) = eqT r a b /\ oo_ne r (Some a) (Some b) = negb (eqT r a b) /\
  oo_lt r (Some a) (Some b) = ltT r a b /\ oo_gt r (Some a) (Some b) = ltT r b a /\
  oo_le r (Some a) (Some b) = negb (ltT r b a) /\ oo_ge r (Some a) (Some b) = negb (ltT r a b).
Proof. repeat split. Qed.
(** [drel] is the comparison of floating point numbers. *)
Lemma drel_nan x : Forall (fun f => f x NaN = false /\ f NaN x = false) [eqT drel; ltT drel; gtT drel; leT drel; geT drel] /\ neT drel x NaN = true /\ neT drel NaN x = true.
Proof. destruct x; repeat constructor. Qed.
Lemma drel_num : agrees Z.compare (fun a b => eqT drel (Num a) (Num b)) (fun a b => neT drel (Num a) (Num b)) (fun a b => ltT drel (Num a) (Num b))
  (fun a b => gtT drel (Num a) (Num b)) (fun a b => leT drel (Num a) (Num b)) (fun a b => geT drel (Num a) (Num b)).
Proof.
  split; intros a b; cbn; unfold Z.ltb, Z.leb; rewrite ?(Z.compare_antisym a b); destruct (Z.compare_spec a b) as [->|H|H]; cbn; try reflexivity;
    rewrite ?Z.eqb_refl; try reflexivity; rewrite (proj2 (Z.eqb_neq a b)) by lia; reflexivity.
Qed.
(** Integers meet the hypotheses. *)
Definition zrel : rel Z := Rel Z.eqb (fun a b => negb (Z.eqb a b)) Z.ltb (fun a b => Z.ltb b a) Z.leb (fun a b => Z.leb b a).
Lemma ex_rel : total Z.compare /\ agrees Z.compare (eqT zrel) (neT zrel) (ltT zrel) (gtT zrel) (leT zrel) (geT zrel) /\
  oo_lt zrel None (Some 3%Z) = true /\ ov_le zrel (Some 3%Z) 3%Z = true /\ vo_gt zrel 4%Z (Some 3%Z) = true.
Proof.
  split; [|split; [|auto]].
  - split.
    + intros a b. apply Z.compare_antisym.
    + intros a b c. rewrite !Z.compare_lt_iff. lia.
    + intros a b c Hab. apply Z.compare_eq in Hab as ->. reflexivity.
  - assert (forall a b, Z.eqb a b = is_Eq (a ?= b)%Z) as He.
    { intros a b. destruct (Z.eqb_spec a b) as [->|Hn]; [rewrite Z.compare_refl; reflexivity|].
      destruct (Z.compare_spec a b); [contradiction|reflexivity|reflexivity]. }
    split; intros a b; cbn; rewrite ?He; auto; unfold Z.ltb, Z.leb; rewrite ?(Z.compare_antisym a b); destruct (a ?= b)%Z; reflexivity.
Qed.

Lemma ex_value_ops : ov_ne drel (Some NaN) NaN = true /\ vo_ge drel NaN (Some NaN) = false /\ vo_ge drel NaN None = true.
Proof. repeat split. Qed.
