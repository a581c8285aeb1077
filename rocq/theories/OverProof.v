(** * Overload resolution for optional *)
From stdpp Require Import prelude list.
From Verif Require Export OverSpec.

Lemma opt_ne t : t <> TOpt t.
Proof. induction t as [|t IH| |]; intros H; try discriminate. injection H. exact IH. Qed.
Lemma opt_ne' t : TOpt t <> t.
Proof. intros H. symmetry in H. eapply opt_ne; eauto. Qed.
Lemma opt_ne2 t : t <> TOpt (TOpt t).
Proof. induction t as [|t IH| |]; intros H; try discriminate. injection H. exact IH. Qed.
Lemma opt_ne2' t : TOpt (TOpt t) <> t.
Proof. intros H. symmetry in H. eapply opt_ne2; eauto. Qed.
Ltac absurd_ty := first [congruence | exfalso; eapply opt_ne; eauto; fail | exfalso; eapply opt_ne2; eauto; fail].
Lemma bdt (t : ty) : bool_decide (t = t) = true.
Proof. apply bool_decide_true. reflexivity. Qed.
Ltac tys := repeat first
  [ rewrite !bdt
  | match goal with |- context [bool_decide (?x = ?y)] => rewrite (bool_decide_false (x = y)) by (intros ?; simplify_eq; absurd_ty) end ].

Ltac crunch := cbn; unfold better, ics; cbn; tys; cbn; unfold ctor_effect, done_effect; cbn; tys; cbn.

Section proofs.
  Context (E : tenv).
  (** The rank of the conversion of an argument to T and to optional<T>. *)
  Lemma conv_same a t : a_ty a = t -> conv E a t = Some RExact.
  Proof. intros <-. unfold conv. rewrite bdt. reflexivity. Qed.
  Lemma std_ty a t : std E a t = true -> exists n, a_ty a = TBase n.
  Proof. unfold std. destruct (a_ty a); try discriminate. eauto. Qed.
  Lemma conv_other a t : a_ty a <> t -> conv E a t = None \/ conv E a t = Some RUser \/ (conv E a t = Some RStd /\ std E a t = true).
  Proof.
    intros H. unfold conv. rewrite bool_decide_false by auto. destruct t; auto.
    - destruct (std E a (TBase n)); auto. destruct (te_conv E a n); auto.
    - case_match; auto.
  Qed.
  Lemma conv_class a t : a_ty a <> t -> (forall n, a_ty a <> TBase n) -> conv E a t = None \/ conv E a t = Some RUser.
  Proof. intros H Hn. destruct (conv_other a t H) as [|[|[_ Hs]]]; auto. apply std_ty in Hs as [n Hs]. edestruct Hn; eauto. Qed.
  Lemma conv_opt a t : a_ty a <> TOpt t ->
    conv E a (TOpt t) = if bool_decide (a_ty a = TNull) || bool_decide (a_ty a = t) || std E a t then Some RUser else None.
  Proof. intros H. unfold conv. rewrite (bool_decide_false (a_ty a = TOpt t)) by auto. reflexivity. Qed.
  Lemma std_class a t : (forall n, a_ty a <> TBase n) -> std E a t = false.
  Proof. intros H. destruct (std E a t) eqn:Hs; [|auto]. apply std_ty in Hs as [n Hs]. edestruct H; eauto. Qed.
  Lemma std_conv a t : std E a t = true -> a_ty a <> t -> conv E a t = Some RStd.
  Proof.
    intros Hs Hn. unfold conv. rewrite bool_decide_false by auto. pose proof Hs as Hs'. unfold std in Hs. destruct (a_ty a), t; try discriminate. rewrite Hs'. reflexivity.
  Qed.
  Lemma direct_all (cn : arg -> bool) T a : allowed T ->
    let v := pick (ctors E cn T a) in
    v <> Ambiguous /\ chosen (ctor_effect T a) v =
      (if bool_decide (a_ty a = TNull) then Some Empty
       else if bool_decide (a_ty a = TInPlace) then Some Default
       else if bool_decide (a_ty a = T) then Some (Value (movable a))
       else if bool_decide (a_ty a = TOpt T) then Some (Same (movable a))
       else
         let via := match conv E a T with Some _ => Some Converted | None => None end in
         match a_ty a with
         | TOpt u => if movable a && cn (Arg u false true) then Some (Inside true)
                     else if cn (Arg u true false) then Some (Inside false) else via
         | _ => via
         end).
  Proof.
    intros [HN HI]. destruct a as [A k rv]. unfold ctors, u_of, movable. cbn [a_ty a_const a_rv].
    destruct (decide (A = TNull)) as [->|H1].
    { unfold by_val, by_cref, by_rref. rewrite (conv_opt _ T) by discriminate. cbn [a_ty a_const a_rv]. tys.
      destruct (conv_class (Arg TNull k rv) T) as [Hc|Hc]; [cbn; congruence|discriminate| |]; rewrite Hc; crunch; (split; [discriminate|reflexivity]). }
    destruct (decide (A = TInPlace)) as [->|H2].
    { unfold by_val, by_cref, by_rref. rewrite (conv_opt _ T) by discriminate. cbn [a_ty a_const a_rv]. rewrite std_class by discriminate. tys.
      destruct (conv_class (Arg TInPlace k rv) T) as [Hc|Hc]; [cbn; congruence|discriminate| |]; rewrite Hc; crunch; (split; [discriminate|reflexivity]). }
    tys.
    destruct (decide (A = T)) as [->|H3].
    { unfold by_val, by_cref, by_rref. rewrite (conv_same (Arg T k rv) T) by reflexivity. rewrite (conv_opt _ T) by (apply opt_ne). cbn [a_ty a_const a_rv]. tys.
      destruct T as [n|u| |]; try congruence; [destruct k, rv; crunch; (split; [discriminate|reflexivity])|].
      rewrite (conv_same (Arg (TOpt u) k rv) (TOpt u)) by reflexivity.
      destruct (cn (Arg u true false)), (cn (Arg u false true)), k, rv; crunch; (split; [discriminate|reflexivity]). }
    tys.
    destruct (decide (A = TOpt T)) as [->|H4].
    { unfold by_val, by_cref, by_rref. rewrite (conv_same (Arg (TOpt T) k rv) (TOpt T)) by reflexivity. cbn [a_ty a_const a_rv]. tys.
      destruct (conv_class (Arg (TOpt T) k rv) T) as [Hc|Hc]; [cbn; intros Hx; eapply opt_ne'; eauto|discriminate| |]; rewrite Hc;
        destruct (cn (Arg T true false)), (cn (Arg T false true)), k, rv; crunch; (split; [discriminate|reflexivity]). }
    tys. unfold by_val. cbn [a_ty]. tys. unfold by_cref, by_rref. rewrite (conv_opt _ T) by auto. cbn [a_ty a_const a_rv]. tys. cbn [orb].
    destruct A as [n|u| |]; try congruence.
    - destruct (conv_other (Arg (TBase n) k rv) T) as [Hc|[Hc|[Hc Hs]]]; [auto| | |]; rewrite Hc; destruct (std E _ T) eqn:Hs'; try congruence.
      all: try (apply std_conv in Hs'; [congruence|auto]); crunch; (split; [discriminate|]); rewrite ?(bool_decide_false (TBase n = T)) by auto; reflexivity.
    - rewrite (conv_same (Arg (TOpt u) k rv) (TOpt u)) by reflexivity. rewrite std_class by discriminate.
      destruct (conv_class (Arg (TOpt u) k rv) T) as [Hc|Hc]; [auto|discriminate| |]; rewrite Hc;
        destruct (cn (Arg u true false)), (cn (Arg u false true)), k, rv; crunch; (split; [discriminate|]); rewrite ?(bool_decide_false (TOpt u = T)) by auto; reflexivity.
  Qed.
  Lemma implicit_all (cn : arg -> bool) T a : allowed T ->
    let v := pick (List.filter (fun c => negb (c_expl c) && (bool_decide (a_ty a = TOpt T) || Nat.ltb (rank_nat (c_rank c)) 2)) (ctors E cn T a)) in
    v <> Ambiguous /\ chosen (ctor_effect T a) v = expect_implicit E T a.
  Proof.
    intros [HN HI]. destruct a as [A k rv]. unfold ctors, u_of, expect_implicit, movable. cbn [a_ty a_const a_rv].
    destruct (decide (A = TNull)) as [->|H1].
    { unfold by_val, by_cref, by_rref. rewrite (conv_opt _ T) by discriminate. cbn [a_ty a_const a_rv]. tys.
      destruct (conv_class (Arg TNull k rv) T) as [Hc|Hc]; [cbn; congruence|discriminate| |]; rewrite Hc; crunch; (split; [discriminate|reflexivity]). }
    tys.
    destruct (decide (A = T)) as [->|H3].
    { unfold by_val, by_cref, by_rref. rewrite (conv_same (Arg T k rv) T) by reflexivity. rewrite (conv_opt _ T) by (apply opt_ne). cbn [a_ty a_const a_rv]. tys.
      destruct T as [n|u| |]; try congruence; [destruct k, rv; crunch; (split; [discriminate|reflexivity])|].
      rewrite (conv_same (Arg (TOpt u) k rv) (TOpt u)) by reflexivity.
      destruct (cn (Arg u true false)), (cn (Arg u false true)), k, rv; crunch; (split; [discriminate|reflexivity]). }
    tys.
    destruct (decide (A = TOpt T)) as [->|H4].
    { unfold by_val, by_cref, by_rref. rewrite (conv_same (Arg (TOpt T) k rv) (TOpt T)) by reflexivity. cbn [a_ty a_const a_rv]. tys.
      destruct (conv_class (Arg (TOpt T) k rv) T) as [Hc|Hc]; [cbn; intros Hx; eapply opt_ne'; eauto|discriminate| |]; rewrite Hc;
        destruct (cn (Arg T true false)), (cn (Arg T false true)), k, rv; crunch; (split; [discriminate|reflexivity]). }
    tys. unfold by_val, by_cref, by_rref. rewrite (conv_opt _ T) by auto. cbn [a_ty a_const a_rv]. tys. cbn [orb].
    destruct A as [n|u| |]; try congruence.
    - destruct (conv_other (Arg (TBase n) k rv) T) as [Hc|[Hc|[Hc Hs]]]; [auto| | |]; rewrite Hc; destruct (std E _ T) eqn:Hs'; try congruence.
      all: try (apply std_conv in Hs'; [congruence|auto]); crunch; (split; [discriminate|]); rewrite ?(bool_decide_false (TBase n = T)) by auto; reflexivity.
    - rewrite (conv_same (Arg (TOpt u) k rv) (TOpt u)) by reflexivity. rewrite std_class by discriminate.
      destruct (conv_class (Arg (TOpt u) k rv) T) as [Hc|Hc]; [auto|discriminate| |]; rewrite Hc;
        destruct (cn (Arg u true false)), (cn (Arg u false true)), k, rv; crunch; (split; [discriminate|]); reflexivity.
    - rewrite std_class by discriminate. tys. destruct (conv_class (Arg TInPlace k rv) T) as [Hc|Hc]; [cbn; congruence|discriminate| |]; rewrite Hc; crunch; (split; [discriminate|reflexivity]).
  Qed.
  Lemma assign_all T a : allowed T -> assign E T a <> Ambiguous /\ chosen (done_effect T a) (assign E T a) = expect_assign E T a.
  Proof.
    intros [HN HI]. destruct a as [A k rv]. unfold assign, asgns, asgs, u_of, expect_assign, movable. cbn [a_ty a_const a_rv].
    destruct (decide (A = TNull)) as [->|H1].
    { unfold by_val, by_cref, by_rref. rewrite (conv_opt _ T) by discriminate. cbn [a_ty a_const a_rv]. tys. crunch.
      destruct (conv_class (Arg TNull false false) T) as [Hc|Hc]; [cbn; congruence|discriminate| |]; rewrite Hc; crunch; (split; [discriminate|reflexivity]). }
    tys.
    destruct (decide (A = T)) as [->|H3].
    { unfold by_val, by_cref, by_rref. rewrite (conv_opt _ T) by (apply opt_ne). cbn [a_ty a_const a_rv]. tys.
      destruct T as [n|u| |]; try congruence.
      - rewrite ?(conv_same (Arg (TBase n) k rv) (TBase n)) by reflexivity. destruct k, rv; crunch; rewrite ?(conv_same (Arg (TBase n) _ _) (TBase n)) by reflexivity; crunch; (split; [discriminate|reflexivity]).
      - rewrite ?(conv_same (Arg (TOpt u) k rv) (TOpt u)) by reflexivity. destruct k, rv; crunch; rewrite ?(conv_same (Arg (TOpt u) _ _) (TOpt u)) by reflexivity; crunch; (split; [discriminate|reflexivity]). }
    tys.
    destruct (decide (A = TOpt T)) as [->|H4].
    { unfold by_val, by_cref, by_rref. rewrite (conv_same (Arg (TOpt T) k rv) (TOpt T)) by reflexivity. cbn [a_ty a_const a_rv]. tys.
      destruct k, rv; crunch; (split; [discriminate|reflexivity]). }
    tys. unfold by_val, by_cref, by_rref. rewrite (conv_opt _ T) by auto. cbn [a_ty a_const a_rv]. tys. cbn [orb].
    destruct A as [n|u| |]; try congruence.
    - destruct (std E _ T) eqn:Hs'; crunch; (split; [discriminate|reflexivity]).
    - rewrite (conv_same (Arg (TOpt u) k rv) (TOpt u)) by reflexivity. rewrite std_class by discriminate.
      destruct k, rv; crunch; rewrite (conv_same (Arg (TOpt u) _ _) (TOpt u)) by reflexivity;
        (match goal with |- context [conv E ?b T] => destruct (conv_class b T) as [Hc|Hc]; [auto|discriminate| |]; rewrite Hc end); crunch; (split; [discriminate|reflexivity]).
    - rewrite std_class by discriminate. crunch. split; [discriminate|reflexivity].
  Qed.
End proofs.

(** ** Consequences *)
Lemma direct_expected E T a : allowed T -> chosen (ctor_effect T a) (direct E T a) = expect_direct E T a.
Proof. intros H. exact (proj2 (direct_all E (con E T) T a H)). Qed.
Lemma implicit_expected E T a : allowed T -> chosen (ctor_effect T a) (implicit E T a) = expect_implicit E T a.
Proof. intros H. exact (proj2 (implicit_all E (con E T) T a H)). Qed.
Lemma assign_expected E T a : allowed T -> chosen (done_effect T a) (assign E T a) = expect_assign E T a.
Proof. intros H. exact (proj2 (assign_all E T a H)). Qed.
Lemma never_ambiguous E T a : allowed T -> direct E T a <> Ambiguous /\ implicit E T a <> Ambiguous /\ assign E T a <> Ambiguous.
Proof. intros H. split; [exact (proj1 (direct_all E (con E T) T a H))|]. split; [exact (proj1 (implicit_all E (con E T) T a H))|exact (proj1 (assign_all E T a H))]. Qed.
Lemma implicit_direct E T a f : allowed T -> chosen (ctor_effect T a) (implicit E T a) = Some f -> chosen (ctor_effect T a) (direct E T a) = Some f.
Proof.
  intros HT. rewrite implicit_expected, direct_expected by auto. unfold expect_implicit, expect_direct. destruct HT as [HN HI].
  case_bool_decide as H1; [auto|]. destruct (decide (a_ty a = TInPlace)) as [H2|H2].
  { rewrite H2. tys. rewrite std_class by (intros n; congruence). discriminate. }
  rewrite (bool_decide_false (a_ty a = TInPlace)) by auto. case_bool_decide as H3; [auto|]. case_bool_decide as H4; [auto|].
  destruct (std E a T) eqn:Hs; [|discriminate]. intros [= <-]. rewrite (std_conv E a T Hs H3). apply std_ty in Hs as [n ->]. reflexivity.
Qed.
Lemma assign_implicit E T a : allowed T -> u_of a = None -> chosen (done_effect T a) (assign E T a) = chosen (ctor_effect T a) (implicit E T a).
Proof.
  intros HT Hu. rewrite implicit_expected, assign_expected by auto. unfold expect_implicit, expect_assign, u_of in *. destruct (a_ty a); try discriminate; reflexivity.
Qed.
Lemma only_movable E T a f : allowed T -> chosen (ctor_effect T a) (direct E T a) = Some f \/ chosen (done_effect T a) (assign E T a) = Some f ->
  moves f = true -> a_const a = false /\ a_rv a = true.
Proof.
  intros HT H Hm. rewrite direct_expected, assign_expected in H by auto. assert (Hx : movable a = true).
  { destruct H as [H|H]; [unfold expect_direct in H|unfold expect_assign in H]; repeat case_match; try discriminate; injection H as <-; cbn in Hm; auto; try discriminate;
      match goal with H : movable _ && _ = true |- _ => apply andb_true_iff in H as [H _]; exact H end. }
  unfold movable in Hx. apply andb_true_iff in Hx as [H1 H2]. apply negb_true_iff in H2. auto.
Qed.
Lemma nested E u k rv : let a := Arg (TOpt u) k rv in
  chosen (ctor_effect (TOpt u) a) (direct E (TOpt u) a) = Some (Value (movable a)) /\ chosen (done_effect (TOpt u) a) (assign E (TOpt u) a) = Some (Value (movable a)).
Proof.
  intros a. assert (HT : allowed (TOpt u)) by (split; discriminate). rewrite direct_expected, assign_expected by exact HT. unfold expect_direct, expect_assign, a. cbn [a_ty]. tys. auto.
Qed.
Lemma no_implicit_between E T u k rv : allowed T -> T <> u -> T <> TOpt u -> implicit E T (Arg (TOpt u) k rv) = NoMatch.
Proof.
  intros HT H1 H2. pose proof (implicit_expected E T (Arg (TOpt u) k rv) HT) as H. destruct (never_ambiguous E T (Arg (TOpt u) k rv) HT) as (_ & Ha & _).
  unfold expect_implicit in H. cbn [a_ty] in H. rewrite (bool_decide_false (TOpt u = TNull)), (bool_decide_false (TOpt u = T)), (bool_decide_false (TOpt u = TOpt T)) in H by congruence.
  rewrite std_class in H by discriminate. destruct (implicit E T _); [discriminate|reflexivity|congruence].
Qed.
Lemma user_conversions E n a : std E a (TBase n) = false -> te_conv E a n = CUser -> a_ty a <> TBase n -> (forall t, a_ty a <> TOpt t) -> a_ty a <> TNull -> a_ty a <> TInPlace ->
  chosen (ctor_effect (TBase n) a) (direct E (TBase n) a) = Some Converted /\ implicit E (TBase n) a = NoMatch /\ assign E (TBase n) a = NoMatch.
Proof.
  intros Hs Hu Hn Ho H1 H2. assert (HT : allowed (TBase n)) by (split; discriminate). rewrite direct_expected by exact HT.
  pose proof (implicit_expected E _ a HT) as Hi. pose proof (assign_expected E _ a HT) as Ha. destruct (never_ambiguous E _ a HT) as (_ & Hai & Haa).
  unfold expect_direct, expect_implicit, expect_assign in *. rewrite !(bool_decide_false (a_ty a = _)) in * by auto. rewrite Hs in *.
  split; [|split].
  - unfold conv. rewrite bool_decide_false by auto. rewrite Hs, Hu. destruct (a_ty a); try reflexivity. edestruct Ho; reflexivity.
  - destruct (implicit E _ a); [discriminate|reflexivity|congruence].
  - destruct (a_ty a) eqn:E1; try (edestruct Ho; reflexivity); destruct (assign E _ a); congruence || discriminate.
Qed.
