(** * Tidy clients never meet undefined behaviour: every step *)
From Verif Require Import Reach InvSlot InvDeath InvRem InvUse InvFault InvSig InvOp.
From Verif Require Export TidyRun.

(** ** Owning more does no harm *)
Section weak.
Context (e : env) (G : list thing) (caps : callable -> list thing).
Definition sub (own own' : list thing) : Prop := forall th, th ∈ own -> has own' th.
Lemma sub_has own own' th : sub own own' -> has own th -> has own' th.
Proof.
  intros Hs [H|(u & -> & H)]; [auto|]. destruct (Hs _ H) as [H'|(u' & [=] & _)]. right. eauto.
Qed.
Lemma sub_in own own' th : sub own own' -> th ∈ own -> (forall u, th <> TSlot u) -> th ∈ own'.
Proof. intros Hs H Hn. destruct (Hs _ H) as [H'|(u & -> & _)]; [exact H'|]. exfalso. eapply Hn. reflexivity. Qed.
Lemma sub_knows own own' th : sub own own' -> knows G own th -> knows G own' th.
Proof.
  intros Hs. induction 1 as [th H|th H|u _ IH|s H].
  - apply K_shared. exact H.
  - destruct (Hs _ H) as [H'|(u & -> & H')]; [apply K_own; exact H'|apply K_full, K_own; exact H'].
  - apply K_full. exact IH.
  - apply K_sig. eapply sub_in; eauto; discriminate.
Qed.
Lemma sub_lends own own' th : sub own own' -> lends G own th -> lends G own' th.
Proof. intros Hs [H|H]; [left; exact H|right; eapply sub_has; eauto]. Qed.
Lemma sub_ok a own own' o : sub own own' -> op_ok G caps a own o -> op_ok G caps a own' o.
Proof.
  intros Hs. pose proof (fun th => sub_has _ _ th Hs) as Hh. pose proof (fun th => sub_knows _ _ th Hs) as Hk. pose proof (fun th => sub_lends _ _ th Hs) as Hd.
  assert (Hf : forall ths, Forall (lends G own) ths -> Forall (lends G own') ths) by (intros ths Hfa; eapply Forall_impl; [exact Hfa|exact Hd]).
  destruct o as [v| | | | |s [c|u] sc|s [c|u]| | | | | |]; cbn; try tauto; try (intros [? ?]; auto; fail).
  - destruct v; cbn; try tauto; try (intros [? ?]; auto; fail); auto.
  - apply Hh.
  - apply Hk.
Qed.
Lemma sub_without own own' th : sub own own' -> (forall u, th <> TFull u) -> sub (without th own) (without th own').
Proof.
  intros Hs Hn x Hx. apply without_elem in Hx as [Hx Hne]. destruct (Hs _ Hx) as [H|(u & -> & H)].
  - left. apply without_elem. auto.
  - right. exists u. split; [reflexivity|]. apply without_elem. split; [exact H|]. intros E. exact (Hn u (eq_sym E)).
Qed.
Lemma sub_cons own own' th : sub own own' -> sub (th :: own) (th :: own').
Proof.
  intros Hs x Hx. apply elem_of_cons in Hx as [->|Hx]; [left; apply elem_of_list_here|].
  destruct (Hs _ Hx) as [H|(u & -> & H)]; [left; apply elem_of_list_further; exact H|right; exists u; split; [reflexivity|apply elem_of_list_further; exact H]].
Qed.
(** Losing knowledge of [u] too. *)
Lemma sub_full own own' u : sub own own' -> forall x, x ∈ without (TFull u) own -> x = TSlot u \/ has (without (TFull u) own') x.
Proof.
  intros Hs x Hx. apply without_elem in Hx as [Hx Hne]. destruct (Hs _ Hx) as [H|(u' & -> & H)].
  - right. left. apply without_elem. auto.
  - destruct (decide (u' = u)) as [->|Hn]; [auto|]. right. right. exists u'. split; [reflexivity|]. apply without_elem. split; [exact H|congruence].
Qed.
Lemma has_app_r own x th : has own th -> has (x ++ own) th.
Proof. intros [H|(u & -> & H)]; [left; apply elem_of_app; auto|right; exists u; split; [reflexivity|apply elem_of_app; auto]]. Qed.
Lemma has_cons own x th : has own th -> has (x :: own) th.
Proof. apply (has_app_r own [x]). Qed.
Lemma sub_left own own' o : sub own own' -> sub (left own o) (left own' o).
Proof.
  intros Hs. destruct o as [v| | | | | | | | | | | |]; cbn; auto; try (apply sub_without; [exact Hs|discriminate]).
  destruct v; cbn; auto; try (apply sub_without; [exact Hs|discriminate]).
  - intros x Hx. apply elem_of_cons in Hx as [->|Hx]; [left; apply elem_of_list_here|].
    destruct (sub_full _ _ _ Hs _ Hx) as [->|H]; [left; apply elem_of_list_here|apply has_cons; exact H].
  - case_bool_decide as Ed; [exact Hs|]. intros x Hx. apply elem_of_app in Hx as [Hx|Hx].
    + case_bool_decide as Ef; [|inversion Hx]. apply elem_of_list_singleton in Hx as ->. left. apply elem_of_app. left.
      rewrite bool_decide_true by (eapply sub_in; eauto; discriminate). apply elem_of_list_here.
    + apply has_app_r. apply elem_of_cons in Hx as [->|Hx]; [left; apply elem_of_list_here|].
      apply elem_of_cons in Hx as [->|Hx]; [left; apply elem_of_list_further, elem_of_list_here|].
      assert (Hd : x = TSlot d \/ x = TSlot s \/ has (without (TFull s) (without (TFull d) own')) x).
      { apply without_elem in Hx as [Hx Hne]. destruct (sub_full _ _ _ Hs _ Hx) as [->|[H|(u & -> & H)]]; [auto| |].
        - right. right. left. apply without_elem. auto.
        - destruct (decide (u = s)) as [->|Hn]; [auto|]. right. right. right. exists u. split; [reflexivity|]. apply without_elem. split; [exact H|congruence]. }
      destruct Hd as [->|[->|Hd]]; [left; apply elem_of_list_here|left; apply elem_of_list_further, elem_of_list_here|]. do 2 apply has_cons. exact Hd.
  - intros x Hx. apply without_elem in Hx as [Hx Hne]. destruct (sub_full _ _ _ Hs _ Hx) as [->|[H|(u' & -> & H)]]; [contradiction| |].
    + left. apply without_elem. auto.
    + right. exists u'. split; [reflexivity|]. apply without_elem. split; [exact H|discriminate].
Qed.
Lemma sub_gained keep own own' o r : sub own own' -> forall th, th ∈ gained keep own o r -> has (gained keep own' o r ++ left own' o) th.
Proof.
  intros Hs th Hth.
  assert (Hsame : gained keep own o r = gained keep own' o r -> has (gained keep own' o r ++ left own' o) th).
  { intros <-. left. apply elem_of_app. auto. }
  destruct o as [v| | | | | | | | | | | |]; try (apply Hsame; destruct r as [|[]| | | | | | |]; reflexivity).
  destruct v; try (apply Hsame; destruct r as [|[]| | | | | | |]; reflexivity).
  - destruct r as [|[]| | | | | | |]; try (inversion Hth; fail). cbn in *. destruct (bool_decide (TFull u ∈ own')) eqn:E.
    + case_bool_decide as Ed; apply elem_of_list_singleton in Hth as ->; [left; apply elem_of_list_here|]. right. eexists. split; [reflexivity|apply elem_of_list_here].
    + case_bool_decide as Ed; apply elem_of_list_singleton in Hth as ->; [|left; apply elem_of_list_here].
      apply bool_decide_eq_false in E. destruct E. eapply sub_in; eauto; discriminate.
  - destruct r as [|[]| | | | | | |]; try (inversion Hth; fail). cbn in *. case_bool_decide as Ed; [|inversion Hth]. apply elem_of_list_singleton in Hth as ->.
    destruct (Hs _ Ed) as [H|(u' & [= <-] & H)].
    + rewrite bool_decide_true by exact H. left. apply elem_of_list_here.
    + left. apply elem_of_app. right. exact H.
Qed.
Lemma sub_keys own own' k : sub own own' -> k ∈ (key <$> own) -> k ∈ (key <$> own').
Proof.
  intros Hs Hk. apply elem_of_list_fmap in Hk as (th & -> & Hin). destruct (Hs _ Hin) as [H|(u & -> & H)].
  - apply elem_of_list_fmap. eauto.
  - apply elem_of_list_fmap. exists (TFull u). auto.
Qed.
Lemma sub_possible keep own own' o r : sub own own' -> possible keep own' o r -> possible keep own o r.
Proof.
  intros Hs. unfold possible. destruct r as [| |n| | | | | |]; try tauto. intros Hp th Hth Hli Hk. apply (sub_keys _ _ _ Hs) in Hk.
  assert (Hg : exists th', th' ∈ gained keep own' o (OutId n) /\ key th' = key th /\ linear th' = true).
  { destruct o as [v| | | | | | | | | | | |]; try (exists th; auto; fail). destruct v; try (exists th; auto; fail). cbn in *.
    case_bool_decide; apply elem_of_list_singleton in Hth as ->; case_bool_decide; eexists; (split; [apply elem_of_list_here|auto]). }
  destruct Hg as (th' & Hin & Ek & Hl). apply (Hp th' Hin Hl). rewrite Ek. exact Hk.
Qed.
Lemma tidy_weaken a own p : tidy e G caps a own p -> forall own', sub own own' -> tidy e G caps a own' p.
Proof.
  induction 1 as [own o Ho|own keep o k Hok Hk IH]; intros own' Hs; [constructor; exact Ho|].
  apply (Tidy_do _ _ _ _ _ keep); [eapply sub_ok; eauto|]. intros r Hr. apply IH; [eapply sub_possible; eauto|]. intros th Hth. apply elem_of_app in Hth as [Hth|Hth].
  - eapply sub_gained; eauto.
  - apply has_app_r. eapply sub_left; eauto.
Qed.
Lemma tidy_nil a p own : tidy e G caps a [] p -> tidy e G caps a own p.
Proof. intros H. eapply tidy_weaken; [exact H|]. intros th Hth. inversion Hth. Qed.
Lemma tidy_bind a own p f : tidy e G caps a own p -> (forall o own', may_return e a o -> tidy e G caps a own' (f o)) -> tidy e G caps a own (bindp p f).
Proof.
  intros Hp Hf. induction Hp as [own o Ho|own keep o k Hok Hk IH]; cbn; [auto|]. apply (Tidy_do _ _ _ _ _ keep); auto.
Qed.
Lemma tidy_eq own a b : tidy_env e G caps -> tidy e G caps Equality own (slot_eq e a b).
Proof.
  intros (_ & _ & _ & He & _). assert (Ht : forall own ty x y, tidy e G caps Equality own (try_equals e ty x y)).
  { intros own0 ty x y. unfold try_equals. destruct (e_cmp e ty); [apply tidy_nil, He|constructor; exact I]. }
  destruct a as [a|], b as [b|]; cbn; try (constructor; exact I). unfold slot_eq, impl_eq. destruct (same_dyn_type a b); [|constructor; exact I].
  destruct (c_kind a); [apply Ht| |]; (apply tidy_bind; [apply Ht|]; intros o own' Ho; destruct o as [|[]| | | | | | |]; try apply Ht; constructor; exact Ho).
Qed.
Lemma tidy_olv n acc rem pos : rem + pos <= n -> tidy e G caps (Combiner n) [] (olv rem pos acc).
Proof.
  revert pos acc. induction rem as [|rem IH]; intros pos acc Hn; cbn; [constructor; exact I|].
  apply (Tidy_do _ _ _ _ _ false); [cbn; exists n; split; [reflexivity|lia]|]. intros r _.
  assert (E : gained false [] (ODeref pos) r ++ left [] (ODeref pos) = []) by (destruct r as [|[]| | | | | | |]; reflexivity). rewrite E.
  destruct r as [| | | | |[z|]| | |]; try (constructor; exact I); apply IH; lia.
Qed.
Lemma tidy_combiner c n : tidy_env e G caps -> tidy e G caps (Combiner n) [] (combiner e c n).
Proof. intros (_ & _ & Hc & _). destruct c as [k|]; cbn; [apply Hc|apply tidy_olv; lia]. Qed.
Lemma locs_consume c args : locs (consume e c args) = locs args.
Proof.
  unfold locs, consume. generalize (e_consumes e c) as g. induction args as [|a args IH]; intros g; [reflexivity|]. rewrite imap_cons. cbn. 
  destruct a as [z|x]; cbn.
  - destruct (g 0); cbn; exact (IH (fun i => g (S i))).
  - f_equal. exact (IH (fun i => g (S i))).
Qed.
End weak.
