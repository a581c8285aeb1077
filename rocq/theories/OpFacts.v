(** * disconnect(f) seen from outside: the list before and after the call *)
From Verif Require Export OpSlots.

Lemma given_same w src a b : given w src a -> given w src b -> a = b.
Proof.
  destruct src as [c|u]; cbn; [intros -> ->; reflexivity|].
  intros (i & Hi & ->) (j & Hj & ->). rewrite Hi in Hj. injection Hj as ->. reflexivity.
Qed.

Lemma erase_outside e ps t s src k st w0 w o new a : reachable e ps w0 -> in_call e t (OErase s src) k st w0 w -> returned t k st w o ->
  since w0 w new -> undisturbed t s new -> given w0 src a ->
  (o = OutExn BadAlloc /\ slots_of w s = slots_of w0 s) \/
  exists pre0 during after before, w_log w = after ++ during ++ pre0 /\ pre0 = before ++ w_log w0 /\
    erases_from e t s a pre0 during o /\ spec_list pre0 s = slots_of w0 s /\ spec_list (during ++ pre0) s = slots_of w s.
Proof.
  intros Hr Hc Ho Hs Hu Hg. destruct (erase_calls _ _ _ _ _ _ _ _ _ _ Hr Hc Ho) as (new' & Hs' & H).
  assert (Hrw : reachable e ps w) by (eapply in_call_reachable; eauto).
  unfold since in Hs, Hs'. rewrite Hs in Hs'. apply app_inv_tail in Hs'. subst new'.
  change slots_of with cur. rewrite (proj1 (list_spec _ _ _ s Hr)), (proj1 (list_spec _ _ _ s Hrw)).
  destruct H as [[-> Hm]|(a' & before & during & Hg' & after & ev & Hn & Hev & Hq & Hf)].
  - left. split; [auto|]. rewrite Hs. apply list_untouched. intros ev Hin. apply Hu; [auto|]. eapply mine_none_in; eauto.
  - right. rewrite (given_same _ _ _ _ Hg' Hg) in Hf.
    assert (Hout : forall ev, ev ∈ after \/ ev ∈ before -> ~ touches s ev).
    { intros x Hin Hto. assert (Hx : x ∈ new).
      { rewrite Hn. destruct Hin; [apply elem_of_app; auto|]. apply elem_of_app; right. apply elem_of_list_further, elem_of_app; auto. }
      refine (Hu _ Hx _ Hto). pose proof (Hq _ Hin Hto) as Hne. destruct x; cbn in *; try contradiction; congruence. }
    exists (before ++ w_log w0), during, (after ++ [ev]), before.
    split; [rewrite Hs, Hn, <- !app_assoc; cbn; rewrite <- !app_assoc; reflexivity|]. split; [auto|]. split; [auto|].
    split; [apply list_untouched; auto|].
    rewrite Hs, Hn, <- !app_assoc. rewrite (list_untouched after) by auto. cbn [app]. rewrite <- !app_assoc. symmetry.
    apply (list_untouched [ev]). intros x Hx. apply elem_of_list_singleton in Hx. subst. auto.
Qed.

Lemma such_ext log1 log2 p xs : (forall l, l ∈ xs -> spec_callee log1 l = spec_callee log2 l) -> such log1 p xs = such log2 p xs.
Proof.
  unfold such. induction xs as [|l xs IH]; intros H; [reflexivity|].
  rewrite !filter_cons, (H l (elem_of_list_here _ _)), IH; [reflexivity|]. intros; apply H, elem_of_list_further; auto.
Qed.

Lemma outside_callee e ps w w0 after during before l c : reachable e ps w -> w_log w = after ++ during ++ before ++ w_log w0 ->
  spec_callee (w_log w0) l = Some c -> spec_callee (during ++ before ++ w_log w0) l = Some c.
Proof.
  intros Hr Hl Hc. rewrite app_assoc. apply callee_app; [|auto].
  pose proof (wf_log_reach _ _ _ Hr) as Hw. rewrite Hl in Hw. rewrite <- app_assoc.
  revert Hw. generalize (during ++ before ++ w_log w0). clear. intros L. induction after as [|x after IH]; cbn [app]; [auto|].
  intros Hw. apply IH. eapply wf_tail; eauto.
Qed.

(** All slots of the list have a callable. *)
Lemma erase_exact e eqb ps t s src k st w0 w o new a : pure_eq e eqb ->
  reachable e ps w0 -> in_call e t (OErase s src) k st w0 w -> returned t k st w o ->
  since w0 w new -> undisturbed t s new -> given w0 src a ->
  (forall l, l ∈ slots_of w0 s -> exists c, spec_callee (w_log w0) l = Some c /\ can_compare e eqb a c) ->
  (o = OutExn BadAlloc /\ slots_of w s = slots_of w0 s) \/
  (o = OutNat (length (such (w_log w0) (is_eq e eqb a) (slots_of w0 s))) /\
   slots_of w s ≡ₚ such (w_log w0) (is_ne e eqb a) (slots_of w0 s)).
Proof.
  intros Hp Hr Hc Ho Hs Hu Hg Hcmp. assert (Hrw : reachable e ps w) by (eapply in_call_reachable; eauto).
  destruct (erase_outside _ _ _ _ _ _ _ _ _ _ _ _ Hr Hc Ho Hs Hu Hg) as [H|(pre0 & during & after & before & Hl & -> & Hf & H0 & H1)]; [left; auto|right].
  assert (Hext : forall p, such (during ++ before ++ w_log w0) p (slots_of w0 s) = such (w_log w0) p (slots_of w0 s)).
  { intros p. apply such_ext. intros l Hin. destruct (Hcmp _ Hin) as (c & Hcc & _). rewrite Hcc. eapply outside_callee; eauto. }
  destruct (erase_pure _ _ _ _ _ _ _ _ Hp Hf) as (_ & Hrest & Hout).
  { intros l Hin. rewrite H0 in Hin. destruct (Hcmp _ Hin) as (c & Hcc & Hd). exists c. split; [eapply outside_callee; eauto|auto]. }
  rewrite H0, Hext in Hrest, Hout. rewrite H1 in Hrest. auto.
Qed.

Lemma erase_nc_outside e ps t s src k st w0 w new : eq_total e ->
  reachable e ps w0 -> in_call e t (OErase s src) k st w0 w -> returned t k st w (OutExn NotComparable) ->
  since w0 w new -> undisturbed t s new -> slots_of w s = slots_of w0 s.
Proof.
  intros Ht Hr Hc Ho Hs Hu. destruct (erase_calls _ _ _ _ _ _ _ _ _ _ Hr Hc Ho) as (new' & Hs' & H).
  destruct H as [[? _]|(a & before & during & Hg & _)]; [discriminate|].
  destruct (erase_outside _ _ _ _ _ _ _ _ _ _ _ _ Hr Hc Ho Hs Hu Hg) as [[? _]|(pre0 & during' & after & before' & Hl & _ & Hf & H0 & H1)]; [discriminate|].
  destruct (erase_not_comparable _ _ _ _ _ _ Ht Hf) as [_ Heq]. congruence.
Qed.

Lemma erase_any_outside e ps t s src k st w0 w o new a : reachable e ps w0 -> in_call e t (OErase s src) k st w0 w -> returned t k st w o ->
  since w0 w new -> undisturbed t s new -> given w0 src a ->
  exists gone, slots_of w0 s ≡ₚ slots_of w s ++ gone /\ (forall n, o = OutNat n -> n = length gone) /\
    (forall l c, l ∈ gone -> spec_callee (w_log w0) l = Some c -> compares_opt e (Some c) a (OutBool true)) /\
    (forall l c n, l ∈ slots_of w s -> spec_callee (w_log w0) l = Some c -> o = OutNat n -> compares_opt e (Some c) a (OutBool false)).
Proof.
  intros Hr Hc Ho Hs Hu Hg. assert (Hrw : reachable e ps w) by (eapply in_call_reachable; eauto).
  destruct (erase_outside _ _ _ _ _ _ _ _ _ _ _ _ Hr Hc Ho Hs Hu Hg) as [[-> ->]|(pre0 & during & after & before & Hl & -> & Hf & H0 & H1)].
  - exists []. rewrite app_nil_r. split; [auto|]. split; [discriminate|]. split; [intros l c H; inversion H|discriminate].
  - destruct Hf as (_ & Hperm & Heq & Hout). rewrite H0, H1 in Hperm. exists (erased_of s during). split; [auto|].
    rewrite H1 in Hout. split; [|split].
    + intros n ->. destruct Hout as [[[= ->] _]|(x & l & ? & _)]; [auto|discriminate].
    + intros l c Hin Hcc. destruct (Heq _ Hin) as (c' & Hc' & Hg').
      rewrite (outside_callee _ _ _ _ _ _ _ _ _ Hrw Hl Hcc) in Hc'. injection Hc' as <-. auto.
    + intros l c n Hin Hcc ->. destruct Hout as [[_ Hne]|(x & l' & ? & _)]; [|discriminate].
      destruct (Hne _ Hin) as (c' & Hc' & Hg').
      rewrite (outside_callee _ _ _ _ _ _ _ _ _ Hrw Hl Hcc) in Hc'. injection Hc' as <-. auto.
Qed.

Lemma erase_other_outside e ps t s src k st w0 w o new b l c : reachable e ps w0 -> in_call e t (OErase s src) k st w0 w -> returned t k st w o ->
  since w0 w new -> undisturbed t s new -> given w0 src (Some b) ->
  l ∈ slots_of w0 s -> spec_callee (w_log w0) l = Some c -> ~ same_type c b -> l ∈ slots_of w s.
Proof.
  intros Hr Hc Ho Hs Hu Hg Hin Hcc Hn.
  destruct (erase_any_outside _ _ _ _ _ _ _ _ _ _ _ _ Hr Hc Ho Hs Hu Hg) as (gone & Hp & _ & Heq & _).
  rewrite Hp in Hin. apply elem_of_app in Hin as [Hin|Hin]; [auto|]. specialize (Heq _ _ Hin Hcc).
  apply compares_true in Heq as (Hst & _). contradiction.
Qed.

Lemma erase_tracked_outside e ps t s src k st w0 w o new b l c : reachable e ps w0 -> in_call e t (OErase s src) k st w0 w -> returned t k st w o ->
  since w0 w new -> undisturbed t s new -> given w0 src (Some b) -> c_kind b = KTracked -> e_cmp e (ft_base (c_pty b)) = false ->
  l ∈ slots_of w0 s -> spec_callee (w_log w0) l = Some c -> same_type c b ->
  (o = OutExn NotComparable \/ o = OutExn BadAlloc) /\ slots_of w s = slots_of w0 s.
Proof.
  intros Hr Hc Ho Hs Hu Hg Hk He Hin Hcc Hst. assert (Hrw : reachable e ps w) by (eapply in_call_reachable; eauto).
  destruct (erase_outside _ _ _ _ _ _ _ _ _ _ _ _ Hr Hc Ho Hs Hu Hg) as [[-> ->]|(pre0 & during & after & before & Hl & -> & Hf & H0 & H1)]; [auto|].
  destruct (erase_tracked _ _ _ _ _ _ _ l c Hf Hk He) as [-> Heq]; [rewrite H0; auto|eapply outside_callee; eauto|auto|].
  split; [auto|congruence].
Qed.
