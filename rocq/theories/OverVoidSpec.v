(** * Specification: a call compiles if overload resolution chooses one function *)
From stdpp Require Import prelude list.
From Verif Require Export OverModel OverVoidModel.

Definition compiles {F} (v : verdict F) : Prop := exists f, v = Chosen f.
