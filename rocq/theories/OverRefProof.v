(** * Overload resolution for optional<T&> *)
From stdpp Require Import prelude list.
From Verif Require Export OverRefSpec.

Section proofs.
  Context (E : renv).
  Ltac ev := cbn; unfold better, ics; cbn; repeat (match goal with |- context [bool_decide (?x = ?y)] => first [rewrite (bool_decide_true (x = y)) by reflexivity | rewrite (bool_decide_false (x = y)) by congruence] end; cbn; unfold better, ics; cbn).

  (** How the argument relates to T. *)
  Lemma related_cases a n : (exists m, r_ty a = RBase m /\ m = n /\ related E a n = Some RExact /\ is_a E a n = true) \/
    (exists m, r_ty a = RBase m /\ related E a n = Some RStd /\ is_a E a n = true) \/
    (related E a n = None /\ is_a E a n = false).
  Proof.
    unfold related, is_a. destruct (r_ty a) as [m|m d| |]; auto. destruct (decide (m = n)) as [->|H].
    - left. exists n. rewrite bool_decide_true by reflexivity. auto.
    - rewrite bool_decide_false by exact H. destruct (re_derived E m n); cbn; eauto 10.
  Qed.
  Lemma makes_cases a n : makes E a n = None \/ makes E a n = Some RUser \/ (exists m, r_ty a = RBase m /\ makes E a n = Some RStd).
  Proof. unfold makes. destruct (re_conv E a n), (r_ty a); eauto. Qed.
  Lemma eqb_case m n d c : bool_decide (m = n) && Bool.eqb d c = bool_decide (ROpt m d = ROpt n c).
  Proof.
    destruct (decide (m = n)) as [->|H]; [rewrite (bool_decide_true (n = n)) by reflexivity|rewrite !bool_decide_false by congruence; reflexivity].
    destruct d, c; cbn; symmetry; first [apply bool_decide_true; reflexivity | apply bool_decide_false; congruence].
  Qed.

  (** The goal is about the verdict on one of the overload sets for the argument [RArg A k rv]. *)
  Ltac un := unfold expect_ref, expect_assigned, rasgn_effect, rdirect, rimplicit, remplace, rassign, rctors, rasgns, by_copy, values, by_null, by_lref, by_mref.
  Ltac fin c k rv := destruct c, k, rv; ev; (split; [discriminate|reflexivity]).
  Ltac same_opt Hr := match type of Hr with related _ (RArg (ROpt ?m ?d) _ _) ?n = _ =>
    match goal with |- context [bool_decide (ROpt m d = ROpt n ?c)] =>
      let He := fresh "He" in destruct (decide (ROpt m d = ROpt n c)) as [He|He]; [injection He as -> ->|] end end.
  Ltac by_cases n c A k rv :=
    unfold expect_ref, expect_lvalue, rctor_effect;
    let Hr := fresh "Hr" in let Hi := fresh "Hi" in let Hm := fresh "Hm" in let HA := fresh "HA" in
    destruct (related_cases (RArg A k rv) n) as [(? & HA & -> & Hr & Hi)|[(? & HA & Hr & Hi)|[Hr Hi]]]; rewrite ?Hi; clear Hi;
    [ cbn in HA; subst A; un; rewrite ?Hr; fin c k rv
    | cbn in HA; subst A; un; rewrite ?Hr; fin c k rv
    | destruct (makes_cases (RArg A k rv) n) as [Hm|[Hm|(? & HA & Hm)]];
      (destruct A; try discriminate HA; un; rewrite ?Hr, ?Hm; cbn [r_ty]; rewrite ?eqb_case; try same_opt Hr; fin c k rv) ].
  Lemma direct_verdict n c a : rdirect E n c a <> Ambiguous /\ rctor_effect E n a (rdirect E n c a) = expect_ref E n c a.
  Proof. destruct a as [A k rv]. by_cases n c A k rv. Qed.
  Lemma implicit_verdict n c a : rimplicit E n c a <> Ambiguous /\ rctor_effect E n a (rimplicit E n c a) = expect_ref E n c a.
  Proof. destruct a as [A k rv]. by_cases n c A k rv. Qed.
  Lemma emplace_verdict n c a : remplace E n c a <> Ambiguous /\ rctor_effect E n a (remplace E n c a) = expect_lvalue E n c a.
  Proof. destruct a as [A k rv]. by_cases n c A k rv. Qed.
  Lemma assign_verdict n c a : rassign E n c a <> Ambiguous /\ rasgn_effect (rassign E n c a) = expect_assigned n c a.
  Proof. destruct a as [A k rv]. by_cases n c A k rv. Qed.
  Lemma ref_constructed n c a : rctor_effect E n a (rdirect E n c a) = expect_ref E n c a /\ rctor_effect E n a (rimplicit E n c a) = expect_ref E n c a.
  Proof. split; [apply direct_verdict|apply implicit_verdict]. Qed.
  Lemma ref_emplaced n c a : rctor_effect E n a (remplace E n c a) = expect_lvalue E n c a.
  Proof. apply emplace_verdict. Qed.
  Lemma ref_assigned n c a : rasgn_effect (rassign E n c a) = expect_assigned n c a.
  Proof. apply assign_verdict. Qed.
  Lemma ref_ambiguous n c a : rdirect E n c a <> Ambiguous /\ rimplicit E n c a <> Ambiguous /\ remplace E n c a <> Ambiguous /\ rassign E n c a <> Ambiguous.
  Proof. split; [apply direct_verdict|split; [apply implicit_verdict|split; [apply emplace_verdict|apply assign_verdict]]]. Qed.
  Lemma lvalue_only n c a v : rctor_effect E n a v = expect_ref E n c a \/ rctor_effect E n a v = expect_lvalue E n c a ->
    v = Chosen QRef -> is_a E a n = true /\ r_rv a = false /\ (r_const a = true -> c = true).
  Proof.
    intros H ->. cbn in H. unfold expect_ref, expect_lvalue, expect_assigned in H.
    destruct (bool_decide (r_ty a = RNull)), (bool_decide (r_ty a = ROpt n c)), (is_a E a n), (r_rv a), c, (r_const a);
      cbn in H; destruct H; try discriminate; auto.
  Qed.
  Lemma ref_lvalues n c a : rdirect E n c a = Chosen QRef \/ rimplicit E n c a = Chosen QRef \/ remplace E n c a = Chosen QRef ->
    is_a E a n = true /\ r_rv a = false /\ (r_const a = true -> c = true).
  Proof.
    destruct (direct_verdict n c a) as [_ H1], (implicit_verdict n c a) as [_ H2], (emplace_verdict n c a) as [_ H3]. intros [H|[H|H]]; (eapply lvalue_only; [|exact H]); auto.
  Qed.
  Lemma ref_temporary n c a : rctor_effect E n a (rdirect E n c a) <> Some ToTemporary /\ rctor_effect E n a (rimplicit E n c a) <> Some ToTemporary /\
    rctor_effect E n a (remplace E n c a) <> Some ToTemporary /\ rasgn_effect (rassign E n c a) <> Some ToTemporary.
  Proof.
    destruct (direct_verdict n c a) as [_ ->], (implicit_verdict n c a) as [_ ->], (emplace_verdict n c a) as [_ ->], (assign_verdict n c a) as [_ ->]. unfold expect_ref, expect_lvalue, expect_assigned. repeat case_match; repeat split; congruence.
  Qed.
  Lemma ref_objects n c m k r : rasgn_effect (rassign E n c (RArg (RBase m) k r)) = None.
  Proof. rewrite ref_assigned. unfold expect_assigned. cbn. rewrite !bool_decide_false by congruence. reflexivity. Qed.
End proofs.
