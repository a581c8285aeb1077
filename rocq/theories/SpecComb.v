(** * Specification of the example combiners *)
From Verif Require Export Combiners.

(** The values among the answers, in order. *)
Fixpoint values_of (ans : list (nat * lid * out)) : list Z :=
  match ans with
  | [] => []
  | (_, _, OutOpt (Some z)) :: ans => z :: values_of ans
  | _ :: ans => values_of ans
  end.

(** Either every slot of the list was visited, once, in order, none threw, and the result
    is right for the values they gave; or the last slot that was visited threw and its
    exception is the result. *)
Definition walks (xs : list lid) (ans : list (nat * lid * out)) (o : out) (right : list Z -> out -> Prop) : Prop :=
  (right (values_of ans) o /\ map fst ans = zip (seq 0 (length xs)) xs /\ Forall (fun a => exists y, snd a = OutOpt y) ans) \/
  (exists n l x ans0, o = OutExn x /\ ans = ans0 ++ [(n, l, OutExn x)] /\
     map fst ans = zip (seq 0 (S n)) (take (S n) xs) /\ n < length xs /\ Forall (fun a => exists y, snd a = OutOpt y) ans0).

(** [m] is a maximum of [zs] for the comparison [lt] of the element type: one of them, and
    none is greater. *)
Definition is_max (lt : Z -> Z -> bool) (zs : list Z) (m : option Z) : Prop :=
  match m with
  | None => zs = []
  | Some z => z ∈ zs /\ forall y, y ∈ zs -> lt z y = false
  end.
(** ... and all those that come before it are smaller. *)
Definition is_first_max (lt : Z -> Z -> bool) (zs : list Z) (m : option Z) : Prop :=
  match m with
  | None => zs = []
  | Some z => exists before after, zs = before ++ z :: after /\
      Forall (fun y => lt y z = true) before /\ Forall (fun y => lt z y = false) after
  end.
(** Properties of a comparison.  Floating point numbers with NaN have the first two. *)
Definition irreflexive_lt (lt : Z -> Z -> bool) : Prop := forall x, lt x x = false.
Definition transitive_lt (lt : Z -> Z -> bool) : Prop := forall x y z, lt x y = true -> lt y z = true -> lt x z = true.
Definition weakly_ordered (lt : Z -> Z -> bool) : Prop := forall x y z, lt x z = true -> lt x y = true \/ lt y z = true.
