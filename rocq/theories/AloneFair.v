(** * Threads that only emit all finish *)
From Verif Require Import Reach InvLock InvVec InvStack InvSig InvUse InvOp OpCalls TestsProof.
From Verif Require Export AloneTest.

Lemma at_tail (f : frame) r : AT adj (f :: r) -> AT adj r.
Proof. cbn. tauto. Qed.
Lemma write_top w0 st s k : AT adj st -> Forall (ok_frame w0) st -> FWrite s k ∈ st -> exists r, st = FWrite s k :: r.
Proof.
  induction st as [|f r IH]; intros HA Hok Hin; [inversion Hin|]. apply elem_of_cons in Hin as [<-|Hin]; [eauto|]. exfalso.
  destruct (IH (at_tail _ _ HA) (Forall_inv_tail Hok) Hin) as [r1 ->]. pose proof (Forall_inv Hok) as Hf. destruct HA as [Hadj _].
  destruct f; cbn in Hf; try contradiction; cbn in Hadj; try contradiction; try discriminate; repeat case_match; try contradiction; try discriminate.
  destruct Hadj as [H|[H|H]]; [discriminate H|contradiction|contradiction].
Qed.

Lemma blocked_by_other e ps w0 ns w t m : reachable e ps w -> all_alike e w0 ns w -> step e w t m = SBlocked ->
  exists t', t' < length (w_thr w0) /\ forall m', match step e w t' m' with SBlocked | SDone => False | _ => True end.
Proof.
  intros Hr (Hc & Hlen & _) Hs. unfold step in Hs. destruct (w_thr w !! t) as [st|] eqn:Est; [|discriminate].
  assert (Hok : Forall (ok_frame w0) st) by (destruct Hc as (_ & _ & _ & _ & H5); eauto).
  assert (Hl : exists s k r g, st = FLock s k :: r /\ get_sig w s = Some g /\ exists t', sg_lock g = Some t').
  { destruct st as [|f r]; [discriminate|]. pose proof (Forall_inv Hok) as Hf. destruct f; cbn in Hf; try contradiction; cbn in Hs; try discriminate.
    - destruct r as [|g r]; [discriminate|]. pose proof (Forall_inv (Forall_inv_tail Hok)) as Hg. destruct g; cbn in Hg; try contradiction; cbn in Hs; repeat case_match; discriminate.
    - destruct p as [o|o k]; [discriminate|]. inversion Hf as [|? ? Hlk _]; subst. destruct o; try contradiction; cbn in Hs; repeat case_match; discriminate.
    - exists s, k, r. destruct (get_sig w s) as [g|] eqn:Eg; [|discriminate]. exists g. split; [reflexivity|]. split; [reflexivity|]. destruct (sg_lock g); [eauto|discriminate].
    - destruct k; try contradiction. unfold step_write in Hs. repeat case_match; discriminate.
    - unfold step_slot, skip in Hs. repeat case_match; discriminate. }
  destruct Hl as (s & k & r & g & -> & Hg & t' & Ht'). destruct (lock_of_sig _ _ _ Hg) as [_ Hsg].
  destruct (owner_exists _ _ _ Hr _ _ _ Hsg Ht') as [st' Hst']. exists t'. split; [rewrite <- Hlen; eapply lookup_lt_Some; eauto|].
  assert (Hok' : Forall (ok_frame w0) st') by (destruct Hc as (_ & _ & _ & _ & H5); eauto).
  destruct (proj1 (lock_iff _ _ _ _ _ s Hr Hst')) as (f & Hin & Hsec); [eauto|].
  assert (Hf : ok_frame w0 f) by (rewrite Forall_forall in Hok'; auto).
  destruct f; cbn in Hf; try contradiction; cbn in Hsec; try contradiction. destruct k0; try contradiction.
  destruct (write_top w0 st' s0 (KRead args)) as [r' ->]; auto; [apply (I_adj_inv _ _ _ Hr _ _ Hst')|].
  intros m'. unfold step. rewrite Hst'. cbn. unfold step_write. repeat case_match; simplify_eq; auto.
Qed.

Section fair.
Context (e : env) (ps : list prog) (w0 : world) (N : tid -> nat).
Hypothesis Hcl : looking_client e.
Hypothesis Hr0 : reachable e ps w0.
Hypothesis H0 : all_lookers w0.
Hypothesis HN : forall t st, w_thr w0 !! t = Some st -> exists wt o, run e w0 (alone t (N t)) = inl wt /\ finished_with wt t o.

Lemma stays e' w t n : step e' w t MOk = SDone -> run e' w (alone t n) = inl w.
Proof. intros H. induction n as [|n IH]; [reflexivity|]. cbn. rewrite H. exact IH. Qed.

Definition within (ns : tid -> nat) : Prop := forall t, t < length (w_thr w0) -> ns t <= N t.

Lemma turn ns w t m : t < length (w_thr w0) -> reachable e ps w -> all_alike e w0 ns w -> within ns ->
  match step e w t m with
  | SOk w' => all_alike e w0 (one_more t ns) w' /\ within (one_more t ns)
  | SBlocked => True
  | SDone => exists o, finished_with w t o
  | SUB u => False
  end.
Proof.
  intros Hlt Hr Ha Hw. pose proof (all_alike_step e ps w0 ns w t m Hcl H0 Hr Ha) as Hs.
  destruct (lookup_lt_is_Some_2 _ _ Hlt) as [st0 Hst0]. destruct (HN _ _ Hst0) as (we & oe & He & Hfe).
  destruct (step e w t m) as [w'| | |u]; auto.
  - destruct Hs as (Hs & wt & w1 & Hrun & Hst). split; [exact Hs|]. intros t' Hlt'. unfold one_more. case_decide; [subst t'|auto].
    destruct (le_lt_dec (N t) (ns t)) as [Hle|]; [|lia]. exfalso. replace (ns t) with (N t + (ns t - N t)) in Hrun by lia.
    rewrite alone_add, run_app, He, (alone_stopped e we t oe _ Hfe) in Hrun. injection Hrun as <-. unfold step in Hst. rewrite Hfe in Hst. discriminate.
  - destruct (Hs _ Hst0) as (wt & Hrun & (_ & (st & st' & E & E' & Hp) & _) & Hst).
    assert (Hwt : finished_with wt t oe).
    { specialize (Hw t Hlt). replace (N t) with (ns t + (N t - ns t)) in He by lia. rewrite alone_add, run_app, Hrun, (stays e wt t _ Hst) in He. congruence. }
    exists oe. unfold finished_with in *. rewrite E. rewrite Hwt in E'. injection E' as <-. apply ret_plain in Hp. congruence.
  - destruct Hs as [n Hn]. destruct (alone_ends e w0 t (N t) n we oe _ He Hfe Hn) as [_ E]. exact (E u eq_refl).
Qed.

Lemma keep ns ns' w w' t m part k : match step e w t m with SBlocked | SDone => True | _ => False end ->
  (total ns k < total ns' k \/ (w' = w /\ ns' = ns /\ forall t m, (t, m) ∈ part -> match step e w t m with SBlocked | SDone => True | _ => False end)) ->
  total ns k < total ns' k \/ (w' = w /\ ns' = ns /\ forall t' m', (t', m') ∈ (t, m) :: part -> match step e w t' m' with SBlocked | SDone => True | _ => False end).
Proof.
  intros Hs [Hd|(-> & -> & Hd)]; [left; exact Hd|]. right. split; [reflexivity|]. split; [reflexivity|]. intros t' m' Hin. apply elem_of_cons in Hin as [E|Hin]; [|exact (Hd _ _ Hin)].
  injection E as -> ->. exact Hs.
Qed.
Lemma part_runs part ns w : reachable e ps w -> all_alike e w0 ns w -> within ns ->
  exists w' ns', run e w part = inl w' /\ reachable e ps w' /\ all_alike e w0 ns' w' /\ within ns' /\
    (total ns (length (w_thr w0)) < total ns' (length (w_thr w0)) \/ (w' = w /\ ns' = ns /\ forall t m, (t, m) ∈ part -> match step e w t m with SBlocked | SDone => True | _ => False end)).
Proof.
  revert ns w. induction part as [|[t m] part IH]; intros ns w Hr Ha Hw.
  - exists w, ns. split; [reflexivity|]. do 3 (split; [assumption|]). right. split; [reflexivity|]. split; [reflexivity|]. intros t m Hin. inversion Hin.
  - cbn [run]. destruct (le_lt_dec (length (w_thr w0)) t) as [Hge|Hlt].
    { assert (Es : step e w t m = SDone). { unfold step. destruct Ha as (_ & Hlen & _). rewrite (proj2 (lookup_ge_None (w_thr w) t)) by lia. reflexivity. }
      rewrite Es. destruct (IH ns w Hr Ha Hw) as (w' & ns' & Hrun & Hr' & Ha' & Hw' & Hd). exists w', ns'. repeat (split; [assumption|]).
      apply keep; auto. rewrite Es. exact I. }
    pose proof (turn ns w t m Hlt Hr Ha Hw) as Ht. destruct (step e w t m) as [w1| | |u] eqn:Es; [| | |contradiction].
    + destruct Ht as [Ha1 Hw1]. destruct (IH (one_more t ns) w1) as (w' & ns' & Hrun & Hr' & Ha' & Hw' & Hd); auto.
      { eapply (run_reachable _ _ _ [(t, m)]); [exact Hr|]. cbn. rewrite Es. reflexivity. }
      exists w', ns'. repeat (split; [assumption|]). left.
      assert (total (one_more t ns) (length (w_thr w0)) = 1 + total ns (length (w_thr w0))) as E.
      { apply (total_upd _ _ _ t 1); [exact Hlt| |]; unfold one_more; [intros t' Hn; rewrite decide_False; auto|rewrite decide_True; auto]. }
      destruct Hd as [Hd|(_ & -> & _)]; lia.
    + destruct (IH ns w Hr Ha Hw) as (w' & ns' & Hrun & Hr' & Ha' & Hw' & Hd). exists w', ns'. repeat (split; [assumption|]).
      apply keep; auto. rewrite Es. exact I.
    + destruct (IH ns w Hr Ha Hw) as (w' & ns' & Hrun & Hr' & Ha' & Hw' & Hd). exists w', ns'. repeat (split; [assumption|]).
      apply keep; auto. rewrite Es. exact I.
Qed.

Lemma total_mono f g n : (forall t, t < n -> f t <= g t) -> total f n <= total g n.
Proof. induction n as [|n IH]; intros H; [reflexivity|]. rewrite !total_S. specialize (H n) as Hn. specialize (IH (fun t Ht => H t (Nat.lt_lt_succ_r _ _ Ht))). lia. Qed.
Definition all_finished (w : world) : Prop := forall t, t < length (w_thr w0) -> exists o, finished_with w t o.

Lemma parts_run parts ns w : reachable e ps w -> all_alike e w0 ns w -> within ns ->
  Forall (fun part => forall t, t < length (w_thr w0) -> exists m, (t, m) ∈ part) parts ->
  total N (length (w_thr w0)) - total ns (length (w_thr w0)) < length parts ->
  exists w', run e w (concat parts) = inl w' /\ all_finished w'.
Proof.
  intros Hr Ha Hw Hp. revert ns w Hr Ha Hw. induction Hp as [|part parts Hpart Hp IH]; intros ns w Hr Ha Hw Hlen; [cbn in Hlen; lia|].
  destruct (part_runs part ns w Hr Ha Hw) as (w1 & ns1 & Hrun & Hr1 & Ha1 & Hw1 & Hd). cbn [concat]. rewrite run_app, Hrun.
  destruct Hd as [Hd|(-> & -> & Hst)].
  - apply (IH ns1 w1); auto. cbn in Hlen. pose proof (total_mono ns1 N _ Hw1). lia.
  - assert (Hfin : all_finished w).
    { intros t Hlt. destruct (Hpart t Hlt) as [m Hm]. specialize (Hst _ _ Hm) as Ht. pose proof (turn ns w t m Hlt Hr Ha Hw) as Hturn.
      destruct (step e w t m) eqn:Es; try contradiction; [|exact Hturn]. exfalso.
      destruct (blocked_by_other e ps w0 ns w t m Hr Ha Es) as (t' & Hlt' & Hno). destruct (Hpart t' Hlt') as [m' Hm']. specialize (Hst _ _ Hm'). specialize (Hno m').
      destruct (step e w t' m'); contradiction. }
    exists w. split; [|exact Hfin]. clear - Hfin Ha. destruct Ha as (_ & Hlen & _). generalize (concat parts). intros sc. induction sc as [|[t m] sc IH]; [reflexivity|]. cbn.
    unfold step. destruct (w_thr w !! t) as [st|] eqn:E; [|exact IH]. destruct (Hfin t) as [o Ho]; [rewrite <- Hlen; eapply lookup_lt_Some; eauto|].
    unfold finished_with in Ho. rewrite E in Ho. injection Ho as ->. exact IH.
Qed.
End fair.

Lemma choose_steps (P : tid -> nat -> Prop) n : (forall t, t < n -> exists k, P t k) -> exists f, forall t, t < n -> P t (f t).
Proof.
  induction n as [|n IH]; intros H; [exists (fun _ => 0); lia|]. destruct IH as [f Hf]; [auto|]. destruct (H n) as [k Hk]; [auto|].
  exists (fun t => if decide (t = n) then k else f t). intros t Ht. case_decide; [subst; exact Hk|apply Hf; lia].
Qed.

Lemma everything_finishes e ps w0 : looking_client e -> reachable e ps w0 -> all_lookers w0 -> each_ends e w0 ->
  exists k, forall sc, rounds (length (w_thr w0)) k sc ->
    exists w, run e w0 sc = inl w /\ forall t, t < length (w_thr w0) -> exists o, finished_with w t o.
Proof.
  intros Hcl Hr H0 He.
  destruct (choose_steps (fun t n => exists wt o, run e w0 (alone t n) = inl wt /\ finished_with wt t o) (length (w_thr w0))) as [N HN].
  { intros t Ht. destruct (lookup_lt_is_Some_2 _ _ Ht) as [st Hst]. exact (He _ _ Hst). }
  exists (S (total N (length (w_thr w0)))). intros sc (parts & -> & Hlen & Hp).
  apply (parts_run e ps w0 N Hcl H0) with (ns := fun _ => 0); auto.
  - intros t st Hst. apply HN. eapply lookup_lt_Some; eauto.
  - eapply all_alike_start; eauto.
  - intros t _. lia.
  - lia.
Qed.

Lemma loops_end e ps w0 : looking_client e -> simple_bodies e -> reachable e ps w0 -> loops w0 -> each_ends e w0.
Proof.
  intros Hcl Hsb Hr Hl t st Ht. destruct (Hl _ _ Ht) as [(o & ->)|(m & s & args & xs & -> & Hrd)].
  - exists 0, w0, o. split; [reflexivity|exact Ht].
  - destruct (many_ends e ps w0 t m s args xs Hcl Hsb Hr (loops_lookers _ Hl) Hrd Ht) as (n & _ & w' & Hn & _ & _ & _ & Hf). eauto.
Qed.


Lemma ex_cross_ends : each_ends cross_env cross_start.
Proof.
  intros t st. assert (E : exists o, w_thr cross_start = [[FRet o]; [FProg (cross_thread 0)]; [FProg (cross_thread 1)]]) by (eexists; vm_compute; reflexivity).
  destruct E as [o E]. destruct t as [|[|[|t]]]; [| | |rewrite E; destruct t; discriminate]; intros _.
  - exists 0, cross_start, o. split; [reflexivity|]. unfold finished_with. rewrite E. reflexivity.
  - exists 100. eexists _, OutUnit. split; [vm_compute; reflexivity|]. vm_compute. reflexivity.
  - exists 100. eexists _, OutUnit. split; [vm_compute; reflexivity|]. vm_compute. reflexivity.
Qed.

Lemma spawned_loops w0 o : ready w0 0 [0] -> w_thr w0 = [FRet o] :: replicate 10 [FProg (emit_many 100 0 [ARef 0; AVal 1])] -> loops w0.
Proof.
  intros Hrd Hthr t st. rewrite Hthr. destruct t as [|t]; [intros [= <-]; left; exists o; reflexivity|]. intros Ht.
  change (replicate 10 [FProg (emit_many 100 0 [ARef 0; AVal 1])] !! t = Some st) in Ht.
  apply lookup_replicate in Ht as [-> _]. right. exists 100, 0, [ARef 0; AVal 1], [0]. split; [reflexivity|exact Hrd].
Qed.
Lemma threaded_test_finishes : exists k, forall sc, rounds 11 k sc ->
  exists w, run add_env (init test_threads) (one 12 ++ sc) = inl w /\ (forall t, t < 11 -> exists o, finished_with w t o) /\ length (slots_called (w_log w)) = 1000.
Proof.
  destruct test_spawned as (w0 & E & Hrd & Hno & o & Hthr).
  assert (Hr : reachable add_env test_threads w0) by (exists (one 12); exact E). pose proof (spawned_loops _ _ Hrd Hthr) as Hl.
  destruct (everything_finishes add_env test_threads w0 add_looks Hr (loops_lookers _ Hl) (loops_end _ _ _ add_looks add_simple Hr Hl)) as [k Hk].
  assert (Hlen : length (w_thr w0) = 11) by (rewrite Hthr; reflexivity). rewrite Hlen in Hk. exists k. intros sc Hsc. destruct (Hk sc Hsc) as (w & Hw & Hfin).
  exists w. assert (Hrun : run add_env (init test_threads) (one 12 ++ sc) = inl w) by (rewrite run_app, E; exact Hw). split; [exact Hrun|]. split; [exact Hfin|].
  pose proof (threaded_test sc) as Ht. rewrite Hrun in Ht. exact (Ht Hfin).
Qed.
