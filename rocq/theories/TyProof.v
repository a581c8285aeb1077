(** * Proofs about what connect accepts *)
From stdpp Require Import prelude list.
From Verif Require Export TySpec.

Section proof.
  Context (E : tenv).

  Lemma converts_iff v t : converts E v t = true <-> te_conv E v t <> CNone.
  Proof. unfold converts. destruct (te_conv E v t); split; intros; congruence. Qed.
  Lemma args_ok_iff args ps : args_ok E args ps = true <-> Forall2 (fun a p => te_conv E a p <> CNone) args ps.
  Proof.
    revert ps. induction args as [|a args IH]; intros [|p ps]; cbn; split; intros H; try discriminate; try (inversion H; fail); auto.
    - apply andb_true_iff in H as [H1 H2]. constructor; [apply converts_iff; auto|]. apply IH. auto.
    - inversion H; subst. apply andb_true_iff. split; [apply converts_iff; auto|]. apply IH. auto.
  Qed.
  Lemma refq_iff q x : refq_ok q x = true <-> (q = QL -> x = LV) /\ (q = QR -> x = RV).
  Proof. destruct q, x; cbn; split; intros; try discriminate; try (split; intros; congruence); auto; destruct H as [H1 H2]; exfalso; (specialize (H1 eq_refl) || specialize (H2 eq_refl)); discriminate. Qed.
  Lemma dot_star_iff m o args v : dot_star E m o args = Some v <-> applies E m o args v.
  Proof.
    split.
    - destruct m as [c k q ps res|c t]; cbn.
      + destruct (te_derives E c (o_cls o)) eqn:Hd; cbn; [|discriminate]. destruct (implb (o_const o) k) eqn:Hk; cbn; [|discriminate].
        destruct (refq_ok q (o_cat o)) eqn:Hq; cbn; [|discriminate]. destruct (args_ok E args ps) eqn:Ha; [|discriminate]. intros [= <-].
        apply refq_iff in Hq as [H1 H2]. constructor; auto; [|apply args_ok_iff; auto].
        intros Hc. rewrite Hc in Hk. cbn in Hk. auto.
      + destruct args; [|discriminate]. destruct (te_derives E c (o_cls o)) eqn:Hd; [|discriminate]. intros [= <-]. constructor. auto.
    - intros [c k q ps res o' args' Hd Hk Hq1 Hq2 Ha|c t o' Hd]; cbn.
      + rewrite Hd, (proj2 (refq_iff _ _) (conj Hq1 Hq2)), (proj2 (args_ok_iff _ _) Ha).
        destruct (o_const o'); [rewrite (Hk eq_refl)|]; reflexivity.
      + rewrite Hd. reflexivity.
  Qed.
  Lemma applies_derives m o args v : applies E m o args v -> te_derives E (m_cls m) (o_cls o) = true.
  Proof. intros []; auto. Qed.

  Lemma invoke_result_iff m e args v : invoke_result E m e args = Some v <-> invokes E m e args v.
  Proof.
    unfold invoke_result, unwrap, base_of, result_ref, result_deref, star. split.
    - destruct e as [[d|k c|cp k c|k c|k c] k' x]; cbn; intros H; try discriminate.
      + destruct (te_derives E (m_cls m) d) eqn:Hd; [|discriminate]. constructor; [auto|]. apply dot_star_iff. auto.
      + destruct (te_derives E (m_cls m) c) eqn:Hd; [|discriminate]. constructor. apply dot_star_iff. auto.
      + constructor. apply dot_star_iff. auto.
      + constructor. apply dot_star_iff. auto.
    - intros [d k x a v' Hd H|k c k' x a v' H|cp k c k' x a v' H|k c k' x a v' H]; cbn.
      + rewrite Hd. apply dot_star_iff. auto.
      + apply applies_derives in H as Hd. cbn in Hd. rewrite Hd. apply dot_star_iff. auto.
      + apply dot_star_iff. auto.
      + apply dot_star_iff. auto.
  Qed.
  Lemma conv_r_iff R v : conv_r E R v = true <-> gives E R v.
  Proof. unfold conv_r, gives. destruct R as [t|]; (split; intros H; [|first [reflexivity|apply converts_iff, H; reflexivity]]); [intros t' [= <-]; apply converts_iff; exact H|intros ?; discriminate]. Qed.
  Lemma return_iff R v : return_ok E R v = true <-> returns E R v.
  Proof.
    unfold return_ok, returns. destruct R as [t|]; [|split; intros H; [intros ?; discriminate|auto]]. split.
    - intros H t' [= <-]. destruct (te_conv E v t); congruence.
    - intros H. rewrite (H t eq_refl). auto.
  Qed.
  Lemma returns_gives R v : returns E R v -> gives E R v.
  Proof. intros H t Ht. rewrite (H t Ht). discriminate. Qed.
  Lemma o_r R m e args : invokes_o E R m e args -> invokes_r E R m e args.
  Proof. intros (v & Hv & H). exists v. auto using returns_gives. Qed.
  Lemma is_invocable_iff R m e args : is_invocable_r E R (invoke_result E m e args) = true <-> invokes_r E R m e args.
  Proof.
    unfold is_invocable_r, invokes_r. split.
    - destruct (invoke_result E m e args) as [v|] eqn:H; [|discriminate]. intros Hc. exists v. split; [apply invoke_result_iff; auto|apply conv_r_iff; auto].
    - intros (v & H & Hc). apply invoke_result_iff in H. rewrite H. apply conv_r_iff. auto.
  Qed.

  Lemma helper_iff m e args v : helper_call E m e args = TOk v <-> invokes E m e args v /\ ~ temporary e.
  Proof.
    unfold helper_call, get, star, temporary. split.
    - destruct e as [[d|k c|cp k c|k c|k c] k' x]; cbn; intros H; try discriminate.
      + destruct (te_derives E (m_cls m) d) eqn:Hd; [|discriminate]. destruct (dot_star E m _ args) as [v'|] eqn:Hs; [|discriminate].
        destruct x; [|discriminate]. injection H as <-. split; [constructor; [auto|apply dot_star_iff; auto]|]. intros (c & _ & Hc). discriminate.
      + destruct (dot_star E m _ args) as [v'|] eqn:Hs; [|discriminate]. injection H as <-.
        split; [constructor; apply dot_star_iff; auto|]. intros (c' & Hc & _). discriminate.
      + destruct (dot_star E m _ args) as [v'|] eqn:Hs; [|discriminate]. injection H as <-.
        split; [constructor; apply dot_star_iff; auto|]. intros (c' & Hc & _). discriminate.
      + destruct (dot_star E m _ args) as [v'|] eqn:Hs; [|discriminate]. injection H as <-.
        split; [constructor; apply dot_star_iff; auto|]. intros (c' & Hc & _). discriminate.
    - intros [[d k x a v' Hd H|k c k' x a v' H|cp k c k' x a v' H|k c k' x a v' H] Ht]; cbn; apply dot_star_iff in H; rewrite ?Hd, H; auto.
      destruct x; [auto|]. exfalso. apply Ht. exists d. auto.
  Qed.
  Lemma helper_hard m e args : helper_call E m e args = THard <-> temporary e /\ exists v, invokes E m e args v.
  Proof.
    unfold helper_call, get, star, temporary. split.
    - destruct e as [[d|k c|cp k c|k c|k c] k' x]; cbn; intros H; try discriminate; try (destruct (dot_star E m _ args); discriminate).
      destruct (te_derives E (m_cls m) d) eqn:Hd; [|discriminate]. destruct (dot_star E m _ args) as [v'|] eqn:Hs; [|discriminate].
      destruct x; [discriminate|]. split; [eauto|]. exists v'. constructor; [auto|apply dot_star_iff; auto].
    - intros [(d & Ht & Hx) (v & Hv)]. destruct Hv; cbn in *; simplify_eq. rewrite H. apply dot_star_iff in H0. rewrite H0. auto.
  Qed.

  Lemma body_iff R m e args : body_ok E R (helper_call E m e args) = true <-> invokes_o E R m e args /\ ~ temporary e.
  Proof.
    unfold body_ok, invokes_o. split.
    - destruct (helper_call E m e args) as [| |v] eqn:H; try discriminate. intros Hc. apply helper_iff in H as [H Ht].
      split; [|auto]. exists v. split; [auto|apply return_iff; auto].
    - intros [(v & Hv & Hg) Ht]. rewrite (proj2 (helper_iff _ _ _ _) (conj Hv Ht)). apply return_iff. auto.
  Qed.
  Lemma kept_not_temporary e : ~ temporary (kept e).
  Proof. destruct e as [[] ? []]; intros (c0 & Hc & Hx); discriminate. Qed.
  Lemma slot_pm_iff R m e args : slot_pm_ok E R m e args = true <-> can_copy E e /\ invokes_o E R m (kept e) args.
  Proof.
    pose proof (kept_not_temporary e) as Ht. destruct e as [[d|k c|cp k c|k c|k c] k' x]; unfold slot_pm_ok, can_copy, kept, copyable in *; cbn [e_ty] in *;
    rewrite ?andb_true_iff, body_iff; tauto.
  Qed.

  Lemma decide_accepted c b : decide_call c b = Accepted <-> c = true /\ b = true.
  Proof. destruct c, b; cbn; split; intros; try discriminate; auto; destruct H; discriminate. Qed.
  Lemma decide_rejected c b : decide_call c b = Rejected <-> c = false.
  Proof. destruct c, b; cbn; split; intros; try discriminate; auto. Qed.
  Lemma decide_hard c b : decide_call c b = HardError <-> c = true /\ b = false.
  Proof. destruct c, b; cbn; split; intros; try discriminate; auto; destruct H; discriminate. Qed.
  Lemma not_true b (P : Prop) : (b = true <-> P) -> (b = false <-> ~ P).
  Proof. intros H. rewrite <- H. destruct b; split; intros; auto; try discriminate; congruence. Qed.

  Lemma connect_pm_verdict R m e args :
    (connect_pm E R m e args = Accepted <-> invokes_r E R m e args /\ can_copy E e /\ invokes_o E R m (kept e) args) /\
    (connect_pm E R m e args = HardError <-> invokes_r E R m e args /\ ~ (can_copy E e /\ invokes_o E R m (kept e) args)) /\
    (connect_pm E R m e args = Rejected <-> ~ invokes_r E R m e args).
  Proof.
    unfold connect_pm. rewrite decide_accepted, decide_rejected, decide_hard.
    rewrite (not_true _ _ (is_invocable_iff R m e args)), (not_true _ _ (slot_pm_iff R m e args)), is_invocable_iff, slot_pm_iff. tauto.
  Qed.
  Lemma connect_first_verdict R m e args :
    (connect_first E R m e args = Accepted <-> invokes_o E R m e args /\ ~ temporary e) /\
    (connect_first E R m e args = HardError <-> invokes_r E R m e args /\ ~ (invokes_o E R m e args /\ ~ temporary e)) /\
    (connect_first E R m e args = Rejected <-> ~ invokes_r E R m e args).
  Proof.
    unfold connect_first. rewrite decide_accepted, decide_rejected, decide_hard.
    rewrite (not_true _ _ (is_invocable_iff R m e args)), (not_true _ _ (body_iff R m e args)), is_invocable_iff, body_iff.
    pose proof (o_r R m e args). tauto.
  Qed.

  (** Pointers, reference_wrapper and shared_ptr do not care how they are passed. *)
  Definition handle (e : expr) : Prop := match e_ty e with ORefW _ _ | OPtr _ _ _ | OShared _ _ => True | _ => False end.
  Lemma handle_kept R m e args : handle e -> (invokes_o E R m (kept e) args <-> invokes_o E R m e args).
  Proof.
    intros Hh. destruct e as [[d|k c|cp k c|k c|k c] k' x]; cbn in Hh; try contradiction; unfold kept, invokes_o; cbn.
    all: split; intros (v & Hv & Hg); exists v; (split; [|auto]); inversion Hv; subst; constructor; auto.
  Qed.
  Lemma handles_fine R m e args : handle e -> can_copy E e -> 
    (connect_pm E R m e args = Accepted <-> invokes_o E R m e args) /\ (connect_pm E R m e args = HardError <-> invokes_r E R m e args /\ ~ invokes_o E R m e args).
  Proof.
    intros Hh Hc. destruct (connect_pm_verdict R m e args) as (H1 & H2 & _). rewrite H1, H2, (handle_kept R m e args Hh). pose proof (o_r R m e args). tauto.
  Qed.
  Lemma lvalues_fine R m c args : te_copies E c = true ->
    (connect_pm E R m (Ex (OClass c) false LV) args = Accepted <-> invokes_o E R m (Ex (OClass c) false LV) args) /\
    (connect_pm E R m (Ex (OClass c) false LV) args = HardError <-> invokes_r E R m (Ex (OClass c) false LV) args /\ ~ invokes_o E R m (Ex (OClass c) false LV) args).
  Proof. intros Hc. destruct (connect_pm_verdict R m (Ex (OClass c) false LV) args) as (H1 & H2 & _). rewrite H1, H2. cbn. pose proof (o_r R m (Ex (OClass c) false LV) args). tauto. Qed.
  Lemma weak_rejected R m k c k' x args : connect_pm E R m (Ex (OWeak k c) k' x) args = Rejected.
  Proof. apply connect_pm_verdict. intros (v & Hv & _). inversion Hv. Qed.
  Lemma weak_would_work R m k c k' x args :
    invokes_o E R m (Ex (OShared k c) false LV) args <-> can_copy E (Ex (OWeak k c) k' x) /\ invokes_o E R m (kept (Ex (OWeak k c) k' x)) args.
  Proof. cbn. tauto. Qed.

  Lemma slot_fn_iff R f args : slot_fn_ok E R f args = true <-> f_copy f = true /\ calls_o E R f LV false args.
  Proof.
    unfold slot_fn_ok, calls_o. rewrite andb_true_iff. destruct (f_call f LV false args) as [v|].
    - rewrite return_iff. split; intros [H1 H2]; (split; [auto|]); [exists v; auto|]. destruct H2 as (v' & [= <-] & Hg). auto.
    - split; intros [H1 H2]; [discriminate|]. destruct H2 as (v' & ? & _). discriminate.
  Qed.
  Lemma calls_iff R f x k args : is_invocable_r E R (f_call f x k args) = true <-> calls_r E R f x k args.
  Proof.
    unfold is_invocable_r, calls_r. destruct (f_call f x k args) as [v|].
    - rewrite conv_r_iff. split; [intros H; exists v; auto|]. intros (v' & [= <-] & Hg). auto.
    - split; [discriminate|]. intros (v' & ? & _). discriminate.
  Qed.
  Lemma connect_fn_verdict R f args :
    (connect_fn E R f args = Accepted <-> calls_r E R f RV false args /\ f_copy f = true /\ calls_o E R f LV false args) /\
    (connect_fn E R f args = HardError <-> calls_r E R f RV false args /\ ~ (f_copy f = true /\ calls_o E R f LV false args)) /\
    (connect_fn E R f args = Rejected <-> ~ calls_r E R f RV false args).
  Proof.
    unfold connect_fn. rewrite decide_accepted, decide_rejected, decide_hard.
    rewrite (not_true _ _ (calls_iff R f RV false args)), (not_true _ _ (slot_fn_iff R f args)), calls_iff, slot_fn_iff. tauto.
  Qed.
  Lemma disconnect_fn_verdict R f x k args :
    (disconnect_fn E R f x k args = Accepted <-> calls_r E R f x k args /\ f_copy f = true /\ calls_o E R f LV false args) /\
    (disconnect_fn E R f x k args = HardError <-> calls_r E R f x k args /\ ~ (f_copy f = true /\ calls_o E R f LV false args)) /\
    (disconnect_fn E R f x k args = Rejected <-> ~ calls_r E R f x k args).
  Proof.
    unfold disconnect_fn. rewrite decide_accepted, decide_rejected, decide_hard.
    rewrite (not_true _ _ (calls_iff R f x k args)), (not_true _ _ (slot_fn_iff R f args)), calls_iff, slot_fn_iff. tauto.
  Qed.
End proof.

(** The argument of a call of disconnect does not matter for what connect accepts when the
    function object can be called alike in every way it can be passed. *)
Lemma connect_disconnect E R f x k args :
  (calls_r E R f x k args <-> calls_r E R f RV false args) ->
  connect_fn E R f args = disconnect_fn E R f x k args.
Proof.
  intros H. rewrite <- !calls_iff in H. unfold connect_fn, disconnect_fn. f_equal.
  destruct (is_invocable_r E R (f_call f x k args)), (is_invocable_r E R (f_call f RV false args)); auto; destruct H as [H1 H2];
    [exact (H1 eq_refl)|symmetry; exact (H2 eq_refl)].
Qed.
