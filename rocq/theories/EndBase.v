(** * What each step uses up *)
From Verif Require Import Reach InvLock InvStack InvUse InvErase InvDeath.
From Verif Require Export SpecEnd Multi.

(** ** Items: what a frame can still do *)
Inductive inner := IN (n : nat) | IP (p : prog) | IK (k : out -> prog).
Definition item := (option nat * inner)%type.

Inductive isub : inner -> inner -> Prop :=
| S_nn n m : n < m -> isub (IN n) (IN m)
| S_np n p : isub (IN n) (IP p)
| S_nk n k : isub (IN n) (IK k)
| S_kp o k : isub (IK k) (IP (Do o k))
| S_pk k x : isub (IP (k x)) (IK k).
Definition llt (a b : option nat) : Prop :=
  match a, b with Some x, Some y => x < y | Some _, None => True | None, _ => False end.
Definition ilt (a b : item) : Prop := llt a.1 b.1 \/ (a.1 = b.1 /\ isub a.2 b.2).

Lemma isub_wf : well_founded isub.
Proof.
  assert (HN : forall n, Acc isub (IN n)).
  { induction n as [n IH] using lt_wf_ind. constructor. intros y Hy. inversion Hy; subst. auto. }
  assert (HP : forall p, Acc isub (IP p)).
  { induction p as [o|o k IH]; constructor; intros y Hy; inversion Hy; subst; auto.
    constructor. intros z Hz. inversion Hz; subst; auto. }
  intros [n|p|k]; auto. constructor. intros y Hy. inversion Hy; subst; auto.
Qed.
Lemma llt_wf : well_founded llt.
Proof.
  assert (HS : forall n, Acc llt (Some n)).
  { induction n as [n IH] using lt_wf_ind. constructor. intros [m|] Hm; cbn in Hm; [auto|contradiction]. }
  intros [n|]; [auto|]. constructor. intros [m|] Hm; cbn in Hm; [auto|contradiction].
Qed.
Lemma ilt_wf : well_founded ilt.
Proof.
  intros [a i]. revert i. induction (llt_wf a) as [a _ IHa]. intros i. induction (isub_wf i) as [i _ IHi].
  constructor. intros [b j] [H|[H1 H2]]; cbn in *; [auto|subst; auto].
Qed.

Section items.
Context (mu : list arg -> nat) (e : env).

(** The level of code whose result goes to the top of [st]. *)
Definition lvl (st : list frame) : option nat :=
  match st with
  | [] => None
  | FEmit _ _ _ args :: _ => Some (4 * mu args + 6)
  | FSlot _ _ args _ _ _ :: _ => Some (4 * mu args + 4)
  | FDtor (inr _) :: _ => Some 3
  | _ => Some 0
  end.
Definition rank (g : stage) : nat :=
  match g with SBlk => 7 | SExp => 6 | SConn => 5 | SDisp => 4 | SDead => 3 | SPin => 2 | SCall => 1 | SRun => 0 end.
Definition clvl (k : crit) : option nat := match k with KRead args => Some (4 * mu args + 7) | _ => Some 2 end.
Definition item_of (f : frame) (st : list frame) : list item :=
  match f with
  | FRet _ => []
  | FProg p => [(lvl st, IP p)]
  | FWait k | FDeref k _ _ => [(lvl st, IK k)]
  | FDisc _ => [(Some 2, IN 4)]
  | FLock _ k => [(clvl k, IN 3)]
  | FWrite _ k => [(clvl k, IN 2)]
  | FBody _ _ k => [(Some 2, IN 1)]
  | FErase _ _ _ i n xs => [(Some 1, IN (S (2 * (length xs - (i + n)))))]
  | FEraseCmp _ _ _ i n xs => [(Some 1, IN (2 * (length xs - (i + n))))]
  | FSlot _ g args _ _ _ => [(Some (4 * mu args + 5), IN (rank g))]
  | _ => [(Some 0, IN 0)]
  end.
Fixpoint items (st : list frame) : list item :=
  match st with [] => [] | f :: st => item_of f st ++ items st end.

(** What the code of each level does. *)
Definition okop (L : option nat) (o : op) : Prop :=
  match L with
  | None => True
  | Some n => (lockless_op e o \/
      (3 <= n /\ match o with OEmit _ args | OSlotCall _ args => 4 * mu args + 7 < n | _ => True end)) /\
      (o = OVar VNewObj -> 4 <= n \/ forall x p, e_odtor e x <> Some p)
  end.
Inductive okp (L : option nat) : prog -> Prop :=
| OK_ret o : okp L (Ret o)
| OK_do o k : okop L o -> (forall x, okp L (k x)) -> okp L (Do o k).

Definition good (f : frame) (r : list frame) : Prop :=
  match f with
  | FProg p => okp (lvl r) p
  | FWait k | FDeref k _ _ => forall x, okp (lvl r) (k x)
  | _ => True
  end /\
  match r with
  | FDeref _ _ _ :: FEmit _ _ _ args0 :: _ =>
      match f with
      | FSlot _ _ args _ _ _ | FRet (OutCall _ args) => mu args = mu args0
      | FDtor _ => True
      | _ => False
      end
  | _ => True
  end.

Lemma okp_lockless L p : lockless e p -> ((exists x q, e_odtor e x = Some q) -> makes_none p) -> okp L p.
Proof.
  induction 1 as [o|o k Ho _ IH]; intros Hm; constructor.
  - destruct L as [n|]; cbn; [|auto]. split; [auto|]. intros ->. right. intros x q Hx. specialize (Hm (ex_intro _ x (ex_intro _ q Hx))). inversion Hm; subst. congruence.
  - intros x. apply IH. intros Hx. specialize (Hm Hx). inversion Hm; subst. auto.
Qed.
Lemma okp_object p : calls_below mu 0 p -> makes_none p -> okp (Some 3) p.
Proof.
  induction 1 as [o|o k Ho _ IH]; intros Hm; constructor; inversion Hm; subst; auto. cbn. split; [|congruence].
  right. split; [lia|]. destruct o; auto; cbn in Ho; lia.
Qed.
Lemma okp_any p : okp None p.
Proof. induction p; constructor; cbn; auto. Qed.
Lemma okp_below m p : calls_below mu m p -> okp (Some (4 * m + 4)) p.
Proof.
  induction 1 as [o|o k Ho _ IH]; constructor; auto. cbn -[Nat.mul]. split; [|intros _; left; lia]. right. split; [lia|]. destruct o; auto; cbn in Ho; lia.
Qed.
Lemma okp_zero m p : calls_below mu 0 p -> okp (Some (4 * m + 6)) p.
Proof.
  induction 1 as [o|o k Ho _ IH]; constructor; auto. cbn -[Nat.mul]. split; [|intros _; left; lia]. right. split; [lia|]. destruct o; auto; cbn in Ho; lia.
Qed.
Lemma olv_below : forall n pos acc, calls_below mu 0 (olv n pos acc).
Proof.
  induction n as [|n IH]; intros pos acc; cbn; [constructor|]. constructor; [exact I|]. intros x. repeat case_match; auto; constructor.
Qed.
End items.
