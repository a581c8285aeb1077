(** * Tidy clients never meet undefined behaviour: every step *)
From Verif Require Import Reach InvSlot InvDeath InvRem InvUse InvFault InvSig InvOp.
From Verif Require Export TidyCase.

(** ** Lifetimes *)
Definition spares (st : list frame) : Prop :=
  match st with FProg (Do (OVar _) _) :: _ | FProg (Do (ODestroySignal _) _) :: _ => False | _ => True end.
Lemma sig_alter w s f s0 : (forall r, sg_alive (f r) = sg_alive r) -> signal_lives w s0 -> signal_lives (w_alter_sig w s f) s0.
Proof.
  intros Hf (r & Hr & Ha). unfold signal_lives. wcbn. rewrite alter_lookup. rewrite Hr. case_decide; cbn; [exists (f r)|exists r]; rewrite ?Hf; auto.
Qed.
Lemma sigs_app (xs : list sigrec) y s0 : (exists r, xs !! s0 = Some r /\ sg_alive r = true) -> exists r, (xs ++ y) !! s0 = Some r /\ sg_alive r = true.
Proof. intros (r & Hr & Ha). exists r. split; [apply lookup_app_l_Some; exact Hr|exact Ha]. Qed.
Lemma trans_siglives e w t st w1 st1 s : trans e w t st w1 st1 -> signal_lives w s -> signal_lives w1 s \/ exists k r, st = FProg (Do (ODestroySignal s) k) :: r.
Proof.
  intros Htr Hl. unfold signal_lives in *. destruct Htr; wcbn; autorewrite with wsimp; auto;
    try (left; apply sigs_app; exact Hl; fail);
    try (left; apply (sig_alter w _ _ s); [reflexivity|exact Hl]; fail).
  all: try (left; unfold do_swap_pop; repeat case_match; exact Hl).
  - destruct (decide (s0 = s)) as [->|Hn]; [right; eauto|]. left. destruct Hl as (r0 & Hr0 & Ha). exists r0. rewrite list_lookup_alter_ne by auto. auto.
  - left. apply sigs_app. apply (sig_alter w _ (sg_set_vec None) s); [reflexivity|exact Hl].
Qed.
Lemma trans_lives e w t st w1 st1 th : trans e w t st w1 st1 -> spares st -> lives w th -> lives w1 th.
Proof.
  intros Htr Hsp Hl. apply lives_iff in Hl as [Hl Hs]. apply lives_iff. split.
  - clear Hs. destruct Htr; cbn in Hsp; try contradiction; wcbn; autorewrite with wsimp; auto.
    + destruct r as [l|u]; [exact Hl|]. destruct th; cbn; auto; (apply at_alter; [|exact Hl]); intros -> x; cbn; auto. intros [H1 [i Hi]]. rewrite Hi. cbn. eauto.
    + destruct r as [l|u]; [exact Hl|]. destruct th; cbn; auto; (apply at_alter; [|exact Hl]); intros -> x; cbn; auto. intros [H1 [i0 Hi]]. rewrite Hi. cbn. eauto.
    + destruct th; cbn; auto. apply at_app. exact Hl.
    + destruct th; cbn; auto. apply at_alter; [|exact Hl]. intros ->. cbn. auto.
    + destruct th; cbn; auto. apply at_alter; [intros -> ; cbn; auto|]. apply at_alter; [|exact Hl]. intros ->. cbn. auto.
  - intros s H. destruct (trans_siglives _ _ _ _ _ _ s Htr (Hs s H)) as [H'|(k & r & ->)]; [exact H'|]. contradiction.
Qed.
Lemma trans_there e w t st w1 st1 k0 : trans e w t st w1 st1 -> there w k0 -> there w1 k0.
Proof.
  intros Htr. pose proof (trans_sigs_mono _ _ _ _ _ _ Htr) as H0.
  assert (H : length (v_conns (w_vars w)) <= length (v_conns (w_vars w1)) /\ length (v_blks (w_vars w)) <= length (v_blks (w_vars w1)) /\ length (v_us (w_vars w)) <= length (v_us (w_vars w1)) /\
    length (v_objs (w_vars w)) <= length (v_objs (w_vars w1)) /\ length (v_store (w_vars w)) <= length (v_store (w_vars w1))).
  { clear H0. destruct Htr; wcbn; autorewrite with wsimp; auto 10;
      try (match goal with H : exec_vop ?w ?t ?v = _ |- _ => pose proof (vop_there w t v x ltac:(rewrite H; reflexivity)) as Hc end; tauto).
    - destruct r as [l|u]; cbn; rewrite ?alter_length; auto 10.
    - destruct r as [l|u]; cbn; rewrite ?alter_length; auto 10.
    - cbn. rewrite app_length. cbn. repeat split; lia.
    - cbn. rewrite alter_length. auto 10.
    - cbn. rewrite !alter_length. auto 10. }
  destruct k0; cbn; lia.
Qed.
