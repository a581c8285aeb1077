(** * Each step of a thread replaces an item by smaller ones *)
From Verif Require Import Reach InvLock InvStack InvUse InvErase InvDeath.
From Verif Require Export EndBase.

Section step.
Context (mu : list arg -> nat) (e : env).
Hypothesis Hll : lockless_env e.
Hypothesis Hmu : ends_env mu e.

Notation good := (good mu e). Notation items := (items mu). Notation lvl := (lvl mu). Notation okp := (okp mu e).

Lemma okp_inv L o k : okp L (Do o k) -> okop mu e L o /\ forall x, okp L (k x).
Proof. inversion 1; auto. Qed.
Lemma none_slot_eq a b : (forall ty x y, makes_none (e_eq e ty x y)) -> makes_none (slot_eq e a b).
Proof.
  clear. intros He. assert (Ht : forall ty x y, makes_none (try_equals e ty x y)).
  { intros. unfold try_equals. case_match; [auto|constructor]. }
  assert (Hb : forall p f, makes_none p -> (forall o, makes_none (f o)) -> makes_none (bindp p f)).
  { intros p f Hp Hf. induction Hp; cbn; [auto|]. constructor; auto. }
  destruct a as [a|], b as [b|]; try constructor. unfold slot_eq, impl_eq.
  repeat case_match; try constructor; auto; apply Hb; auto; intros o; repeat case_match; try constructor; auto.
Qed.
Lemma okp_eq a b L : okp L (slot_eq e a b).
Proof.
  apply okp_lockless; [apply lockless_slot_eq, Hll|]. intros (x & q & Hx). destruct Hmu as (_ & _ & _ & Ho). apply none_slot_eq. eapply Ho; eauto.
Qed.
Lemma okp_body r c args : okp (lvl [FSlot r SRun (consume e c args) None None 0]) (e_body e r c args).
Proof. destruct Hmu as (Hb & _ & Hc & _). cbn. rewrite Hc. apply okp_below, Hb. Qed.
Lemma okp_comb c n args : okp (Some (4 * mu args + 6)) (combiner e c n).
Proof. destruct Hmu as (_ & Hb & _). apply okp_zero. destruct c; cbn; [apply Hb|apply olv_below]. Qed.

Ltac gd := match goal with
  | |- good _ _ => split
  | H : good _ _ |- _ => destruct H
  end.
Lemma good_trans w t st w' st' : trans e w t st w' st' -> AT good st -> AT good st'.
Proof.
  intros Htr HA. pose proof (proj1 (proj2 (proj2 Hmu))) as Hc. destruct Htr; cbn [AT] in HA |- *;
    repeat match goal with H : _ /\ _ |- _ => destruct H end; try assumption;
    repeat match goal with H : good (FProg (Do _ _)) _ |- _ => let H1 := fresh "Hd" in destruct H as [H1 ?]; apply okp_inv in H1 as [? ?] end;
    try match goal with H : exec_vop _ _ _ = VDo _ _ _ |- _ => apply vop_after' in H as [-> |[(? & ? & ->)|[(? & ? & ->)| ->]]]; cbn [app AT] end;
    try match goal with H : begins _ _ _ _ _ |- _ => destruct H; cbn [app AT] end;
    repeat match goal with H : good _ _ |- _ => destruct H end;
    unfold EndBase.good; repeat match goal with |- _ /\ _ => split end; cbn -[Nat.mul Nat.add] in *; auto;
    try (repeat case_match; simplify_eq; auto; try contradiction; fail);
    try apply okp_eq.
  - rewrite Hc. apply okp_below, Hmu.
  - rewrite Hc. auto.
  - apply okp_comb.
  - match goal with H : mu _ = mu _ |- _ => rewrite H end. auto.
Qed.

Lemma vdo_locks w t v x l after : exec_vop w t v = VDo x l after -> ~ lockless_var e v.
Proof. intros H. destruct v; cbn in *; auto; exfalso; revert H; unfold exec_vop, blk_eff; cbv zeta; repeat case_match; discriminate. Qed.

(** The level of code that does an operation which is not lockless. *)
Lemma locks_level L o : okop mu e L o -> ~ lockless_op e o -> llt (Some 2) L /\ llt (Some 0) L /\
  match o with OEmit _ args | OSlotCall _ args => llt (Some (4 * mu args + 7)) L /\ llt (Some (4 * mu args + 5)) L | _ => True end.
Proof. destruct L as [n|]; cbn; [|repeat case_match; auto]. intros [[H|[H1 H2]] _] Hn; [contradiction|]. split; [lia|]. split; [lia|]. destruct o; auto; lia. Qed.

Lemma zero_le L i : ilt (Some 0, IN 0) (L, i) \/ exists n, L = Some 0 /\ i = IN n.
Proof. destruct L as [[|n]|]; [destruct i; eauto| |]; left; first [right; split; [reflexivity|constructor]|left; cbn; lia|left; exact I]. Qed.
Lemma zero_p L p : ilt (Some 0, IN 0) (L, IP p).
Proof. destruct (zero_le L (IP p)) as [H|(n & _ & H)]; [exact H|discriminate]. Qed.
Lemma k_p L o k : ilt (L, IK k) (L, IP (Do o k)).
Proof. right. split; [reflexivity|constructor]. Qed.
Lemma p_k L k x : ilt (L, IP (k x)) (L, IK k).
Proof. right. split; [reflexivity|]. constructor. Qed.
Lemma n_n L n m : n < m -> ilt (L, IN n) (L, IN m).
Proof. intros. right. split; [reflexivity|]. constructor. auto. Qed.
Lemma lv L L' i j : llt L L' -> ilt (L, i) (L', j).
Proof. left; auto. Qed.

Ltac go st l := lazymatch l with
  | EndBase.items mu st => constr:(@nil item)
  | ?a :: ?r => let r' := go st r in constr:(a :: r')
  end.
Ltac front := cbn [EndBase.items item_of app]; lazymatch goal with |- ?l = _ ++ EndBase.items _ ?st => let xs := go st l in exact (eq_refl (xs ++ items st)) end.
Ltac one := first [apply zero_p|apply k_p|apply p_k|apply n_n; cbn; lia|
  match goal with H : okop _ _ _ ?o |- ilt _ _ => destruct (locks_level _ _ H) as (? & ? & ?); [first [exact (fun H => H)|assumption]|apply lv; cbn [clvl]; tauto] end|
  apply lv; cbn -[Nat.mul Nat.add]; lia].
Ltac fin := repeat first [apply Forall_nil; exact I|apply Forall_cons; split; [one|]].
Ltac noB := let H := fresh in intros ? ? ? ? H; first [discriminate H|reflexivity].

Lemma uses w t st w' st' : trans e w t st w' st' -> AT good st ->
  (forall o s v tgt i n xs r, st = FRet o :: FEraseCmp s v tgt i n xs :: r -> i + n < length xs) ->
  exists x xs ys, items st = x :: ys /\ items st' = xs ++ ys /\ Forall (fun y => ilt y x) xs /\
    (forall s v k r, st = FBody s v k :: r -> x.1 = Some 2).
Proof.
  intros Htr HA Her. pose proof (proj1 (proj2 (proj2 Hmu))) as Hc.
  assert (HF : forall x xs ys st1 st2, items st1 = x :: ys -> items st2 = xs ++ ys -> Forall (fun y => ilt y x) xs ->
    (forall s v k r, st1 = FBody s v k :: r -> x.1 = Some 2) ->
    exists x xs ys, items st1 = x :: ys /\ items st2 = xs ++ ys /\ Forall (fun y => ilt y x) xs /\
    (forall s v k r, st1 = FBody s v k :: r -> x.1 = Some 2)) by eauto 10.
  clear Hll.
  destruct Htr;
    try match goal with H : exec_vop _ _ _ = VDo _ _ _ |- _ => pose proof (vdo_locks _ _ _ _ _ _ H) as Hnl; apply vop_after' in H as [-> |[(? & ? & ->)|[(? & ? & ->)| ->]]]; cbn [app] end;
    try match goal with H : begins _ _ _ _ _ |- _ => destruct H; cbn [app] end;
    try match goal with H : AT good (FProg (Do ?o ?k) :: ?st) |- _ => destruct H as [[Hd _] _]; cbn [EndBase.good] in Hd; apply okp_inv in Hd as [Hd _];
      assert (Hlv : lockless_op e o \/ ~ lockless_op e o) by (cbn; auto; fail) || pose proof I as Hlv end;
    try (match goal with |- exists x xs ys, EndBase.items _ (_ :: ?st) = _ /\ _ => eapply (HF _ _ (items st)) end;
         [reflexivity|front|fin|noB]; fail);
    try (match goal with |- exists x xs ys, EndBase.items _ (_ :: _ :: ?st) = _ /\ _ => eapply (HF _ _ (items st)) end;
         [reflexivity|front|fin|noB]; fail).
  - eapply (HF _ [_; _] (items (FEmit s eid v args :: st))); [reflexivity|reflexivity| |noB].
    apply Forall_cons; split; [apply lv; cbn -[Nat.mul Nat.add]; lia|]. apply Forall_cons; split; [apply k_p|constructor].
  - eapply (HF _ [_] (items st)); [reflexivity|reflexivity| |noB]. apply Forall_cons; split; [|constructor].
    apply n_n. match goal with H : advances _ _ _ _ _ _ _ |- _ => destruct H end; cbn; lia.
  - eapply (HF _ [_; _] (items st)); [reflexivity|reflexivity| |noB].
    apply Forall_cons; split; [apply lv; cbn -[Nat.mul Nat.add]; rewrite Hc; lia|]. apply Forall_cons; split; [|constructor].
    rewrite Hc. apply n_n. cbn. lia.
  - eapply (HF _ [_] (items st)); [reflexivity|reflexivity| |noB]. apply Forall_cons; split; [|constructor].
    apply lv. destruct k; cbn; lia.
  - eapply (HF _ [_] (items st)); [reflexivity|reflexivity| |noB]. apply Forall_cons; split; [|constructor].
    destruct k; cbn in *; try contradiction; apply n_n; lia.
  - eapply (HF _ [_] (items st)); [reflexivity|reflexivity| |noB]. apply Forall_cons; split; [|constructor].
    destruct k; cbn in *; try contradiction; apply n_n; lia.
  - destruct HA as ((_ & Ha) & _). cbn in Ha. eapply (HF _ [_] (items (FEmit s eid v args :: st))); [reflexivity|reflexivity| |noB].
    apply Forall_cons; split; [|constructor]. cbn -[Nat.mul Nat.add]. rewrite Ha. apply p_k.
  - pose proof (Her _ _ _ _ _ _ _ _ eq_refl). eapply (HF _ [_] (items st)); [reflexivity|reflexivity| |noB].
    apply Forall_cons; split; [|constructor]. apply n_n. lia.
  - pose proof (Her _ _ _ _ _ _ _ _ eq_refl). eapply (HF _ [_] (items st)); [reflexivity|reflexivity| |noB].
    apply Forall_cons; split; [|constructor]. apply n_n. lia.
Qed.
End step.
