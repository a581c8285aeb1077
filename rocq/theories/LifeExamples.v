(** * The life of slot objects: the statements about runs, and runs *)
From Verif Require Import RaceExamples InvFields.
From Verif Require Export LifeOnce.

Lemma life_lock s : sw_life (Rel (YLock s)) (Acq (YLock s)).
Proof. do 2 constructor. Qed.
Lemma life_cnt v : sw_life (Rel (YCount v)) (Acq (YCount v)).
Proof. do 2 constructor. Qed.
Lemma life_of e ps w tr : lived e ps w tr -> RaceProof.Inv sw_life False w tr /\ Life sw_life False w tr.
Proof. exact (lived_inv sw_life False life_lock life_cnt (fun U => match U with end) SL_slot SL_hand e ps w tr). Qed.
Lemma use_of e ps w tr : lived e ps w tr -> RaceProof.Inv sw_life_use True w tr /\ Life sw_life_use True w tr.
Proof.
  exact (lived_inv sw_life_use True (fun s => LU_life _ _ (life_lock s)) (fun v => LU_life _ _ (life_cnt v)) (fun _ => LU_use)
    (fun l => LU_life _ _ (SL_slot l)) (fun l => LU_life _ _ (SL_hand l)) e ps w tr).
Qed.

Lemma made_first e ps w tr i j l (b : bool) : lived e ps w tr -> i < j -> accesses tr i (LSlot l) true -> accesses tr j (LSlot l) b -> hb sw_life tr i j.
Proof. intros Hl Hlt Hi Hj. destruct (life_of _ _ _ _ Hl) as [_ HL]. eapply (L_ord _ _ _ _ HL); eauto. Qed.
Lemma destroyed_after e ps w tr i j l (b : bool) : lived e ps w tr -> ~ taken_out (w_log w) l ->
  i < j -> accesses tr i (LSlot l) b -> accesses tr j (LSlot l) true -> hb sw_life tr i j.
Proof. intros Hl Hn Hlt Hi Hj. destruct (life_of _ _ _ _ Hl) as [_ HL]. eapply (L_ord _ _ _ _ HL); eauto. right. right. auto. Qed.

Lemma lived_obj e ps w tr : lived e ps w tr -> forall i o b, ~ accesses tr i (LObj o) b.
Proof.
  induction 1 as [|w tr t f st w' _ IH Ht Hs]; intros i o b Hi; [destruct Hi; discriminate|].
  apply acc_split in Hi as [Hi|[_ Hi]]; [eapply IH; eauto|]. apply elem_of_list_lookup_2 in Hi.
  unfold all_acts in Hi. rewrite !elem_of_app in Hi. destruct Hi as [Hi|[Hi|Hi]].
  - unfold slot_uses, last_slot, nth_slot in Hi. destruct b; repeat case_match; rewrite ?elem_of_app, ?elem_of_cons, ?elem_of_nil in Hi; destruct_or?; simplify_eq; contradiction.
  - destruct (acts_off w t st w' (LObj o) I). destruct b; contradiction.
  - apply drops_in in Hi as (l & _ & _ & H). destruct b; destruct_or?; destruct_and?; discriminate.
Qed.

Lemma race_life sw uses w tr i j : RaceProof.Inv sw uses w tr -> Life sw uses w tr -> (forall i o b, ~ accesses tr i (LObj o) b) -> race sw tr i j -> i < j ->
  exists t u x, t <> u /\ tr !! i = Some (t, Rd x) /\ tr !! j = Some (u, Wr x) /\ ~ uses /\
    ((exists v, x = LVec v) \/ (exists l, x = LSlot l /\ ~ ~ taken_out (w_log w) l)).
Proof.
  intros HI HL Hoff (t & u & x & a & b & Hn & Hi & Hj & Hab & H1 & H2) Hlt. exists t, u, x. split; [auto|].
  assert (Hai : accesses tr i x a) by (exists t; auto). assert (Haj : accesses tr j x b) by (exists u; auto).
  destruct x as [s|v|l|l|o]; [..|exfalso; eapply Hoff; eauto].
  - exfalso. apply H1. eapply (V_good _ _ _ _ HI); eauto. split; cbn; auto.
  - destruct a; [exfalso; apply H1; eapply (V_good _ _ _ _ HI); eauto; split; cbn; auto|]. destruct b; [|destruct Hab; discriminate].
    split; [auto|]. split; [auto|]. split; [intros U; apply H1; eapply (V_good _ _ _ _ HI); eauto; split; cbn; auto|]. left. eauto.
  - exfalso. apply H1. eapply (V_good _ _ _ _ HI); eauto. split; cbn; auto.
  - destruct a; [exfalso; apply H1; eapply (L_ord _ _ _ _ HL); eauto|]. destruct b; [|destruct Hab; discriminate].
    split; [auto|]. split; [auto|]. split; [intros U; apply H1; eapply (L_ord _ _ _ _ HL); eauto; right; left; auto|].
    right. exists l. split; [auto|]. intros Hto. apply H1. eapply (L_ord _ _ _ _ HL); eauto. right. right. auto.
Qed.

Lemma taken_dec log l : taken_out log l \/ ~ taken_out log l.
Proof.
  assert (Hd : forall ev, (exists t s l0, ev = ERem t s l0 l) \/ (exists t s, ev = EErased t s l) \/ ~ ((exists t s l0, ev = ERem t s l0 l) \/ (exists t s, ev = EErased t s l))).
  { intros ev. destruct ev; try (right; right; intros [(? & ? & ? & E)|(? & ? & E)]; discriminate).
    - destruct (decide (l' = l)) as [->|Hn]; [left; eauto|right; right; intros [(? & ? & ? & E)|(? & ? & E)]; congruence].
    - destruct (decide (l0 = l)) as [->|Hn]; [right; left; eauto|right; right; intros [(? & ? & ? & E)|(? & ? & E)]; congruence]. }
  unfold taken_out. induction log as [|ev log IH].
  - right. intros [(? & ? & ? & H)|(? & ? & H)]; inversion H.
  - destruct (Hd ev) as [(t & s & l0 & ->)|[(t & s & ->)|Hn]]; [left; left; exists t, s, l0; left|left; right; exists t, s; left|].
    destruct IH as [[(t & s & l0 & H)|(t & s & H)]|IH].
    + left. left. exists t, s, l0. right. auto.
    + left. right. exists t, s. right. auto.
    + right. intros [(t & s & l0 & H)|(t & s & H)]; apply elem_of_cons in H as [H|H].
      * apply Hn. left. eauto.
      * apply IH. left. eauto.
      * apply Hn. right. eauto.
      * apply IH. right. eauto.
Qed.

Lemma only_race_life e ps w tr i j : lived e ps w tr -> race sw_life tr i j -> i < j ->
  exists t u x, t <> u /\ tr !! i = Some (t, Rd x) /\ tr !! j = Some (u, Wr x) /\
    ((exists v, x = LVec v) \/ (exists l, x = LSlot l /\ taken_out (w_log w) l)).
Proof.
  intros Hl Hrace Hlt. destruct (life_of _ _ _ _ Hl) as [HI HL]. destruct (race_life _ _ _ _ _ _ HI HL (lived_obj _ _ _ _ Hl) Hrace Hlt) as (t & u & x & Hn & Hi & Hj & _ & Hx).
  exists t, u, x. split; [auto|]. split; [auto|]. split; [auto|]. destruct Hx as [Hx|(l & -> & Hx)]; [auto|]. right. exists l. split; [auto|].
  destruct (taken_dec (w_log w) l); [auto|contradiction].
Qed.

Lemma race_sym sw tr i j : race sw tr i j -> race sw tr j i.
Proof. intros (t & u & x & a & b & Hn & Hi & Hj & Hab & H1 & H2). exists u, t, x, b, a. split; [auto|]. split; [auto|]. split; [auto|]. split; [tauto|]. auto. Qed.
Lemma no_race_life_use e ps w tr i j : lived e ps w tr -> ~ race sw_life_use tr i j.
Proof.
  intros Hl Hrace. destruct (use_of _ _ _ _ Hl) as [HI HL].
  destruct (Nat.lt_total i j) as [Hlt|[->|Hlt]].
  - destruct (race_life _ _ _ _ _ _ HI HL (lived_obj _ _ _ _ Hl) Hrace Hlt) as (_ & _ & _ & _ & _ & _ & Hu & _). auto.
  - destruct Hrace as (t & u & x & a & b & Hn & Hi & Hj & _). congruence.
  - destruct (race_life _ _ _ _ _ _ HI HL (lived_obj _ _ _ _ Hl) (race_sym _ _ _ _ Hrace) Hlt) as (_ & _ & _ & _ & _ & _ & Hu & _). auto.
Qed.

(** ** Every run has its actions *)
Lemma run_lived e ps w0 tr0 sc w : lived e ps w0 tr0 -> run e w0 sc = inl w -> exists tr, lived e ps w (tr0 ++ tr).
Proof.
  revert w0 tr0. induction sc as [|[t f] sc IH]; intros w0 tr0 H0 Hr; cbn in Hr.
  - simplify_eq. exists []. rewrite app_nil_r. auto.
  - destruct (step e w0 t f) as [w1| | |] eqn:Hs; try discriminate; eauto.
    destruct (w_thr w0 !! t) as [st|] eqn:Ht; [|unfold step in Hs; rewrite Ht in Hs; discriminate].
    destruct (IH w1 _ (L_step _ _ _ _ _ _ _ _ H0 Ht Hs) Hr) as [tr Htr]. rewrite <- app_assoc in Htr. eauto.
Qed.
Lemma reach_lived e ps w : reachable e ps w -> exists tr, lived e ps w tr.
Proof. intros [sc Hsc]. destruct (run_lived e ps _ _ _ _ (L_init e ps) Hsc) as [tr H]. eauto. Qed.

(** ** Computing the actions of a run *)
Fixpoint life_run (e : env) (w : world) (sc : list (tid * mem)) (tr : list (tid * act)) : option (world * list (tid * act)) :=
  match sc with
  | [] => Some (w, tr)
  | (t, f) :: sc =>
      match step e w t f with
      | SOk w' => life_run e w' sc (tr ++ ((fun a => (t, a)) <$> all_acts w t (default [] (w_thr w !! t)) w'))
      | SBlocked | SDone => life_run e w sc tr
      | SUB _ => None
      end
  end.
Lemma life_run_lived e ps sc w0 tr0 w tr : lived e ps w0 tr0 -> life_run e w0 sc tr0 = Some (w, tr) -> lived e ps w tr.
Proof.
  revert w0 tr0. induction sc as [|[t f] sc IH]; intros w0 tr0 H0 Hr; cbn in Hr; [simplify_eq; eauto|].
  destruct (step e w0 t f) as [w1| | |] eqn:Hs; try discriminate; eauto.
  destruct (w_thr w0 !! t) as [st|] eqn:Ht; [|unfold step in Hs; rewrite Ht in Hs; discriminate].
  eapply IH; [|exact Hr]. cbn. eapply L_step; eauto.
Qed.
(** The events of the run and its actions. *)
Definition life_log (e : env) (ps : list prog) (sc : list (tid * mem)) : option (list event * list (tid * act)) :=
  match life_run e (init ps) sc [] with Some (w, tr) => Some (w_log w, tr) | None => None end.
Lemma life_log_lived e ps sc log tr : life_log e ps sc = Some (log, tr) -> exists w, lived e ps w tr /\ w_log w = log.
Proof.
  unfold life_log. destruct (life_run e (init ps) sc []) as [[w tr']|] eqn:E; [|discriminate]. intros H. simplify_eq. exists w. split; [|auto].
  eapply life_run_lived; [constructor|exact E].
Qed.

(** ** What is not ordered *)
Local Instance sobj_dec' : EqDecision sobj.
Proof. solve_decision. Defined.
Definition sync (a b : act) : bool :=
  match a, b with
  | Rel o, Acq o' => bool_decide (o = o')
  | Rel (YSlot l), Pin l' | Pin l, Acq (YSlot l') | Pin l, Pin l' => Nat.eqb l l'
  | _, _ => false
  end.
Lemma sync_all a b : sw_life_all a b -> sync a b = true.
Proof. intros [? ? [[]]|l|l|l]; cbn; first [apply Nat.eqb_refl|apply bool_decide_true; reflexivity]. Qed.
Definition edge' (tr : list (tid * act)) (i j : nat) : bool :=
  match tr !! i, tr !! j with
  | Some (t, a), Some (u, b) => Nat.eqb t u || sync a b
  | _, _ => false
  end.
Definition after' (tr : list (tid * act)) (i : nat) : list nat :=
  fold_left (fun xs j => if existsb (fun k => edge' tr k j) xs then xs ++ [j] else xs) (seq (S i) (length tr - S i)) [i].
Definition closed' (tr : list (tid * act)) (xs : list nat) : bool :=
  forallb (fun k => forallb (fun j => implb (edge' tr k j) (existsb (Nat.eqb j) xs)) (seq (S k) (length tr - S k))) xs.
Lemma closed_hb' tr xs i j : closed' tr xs = true -> hb sw_life_all tr i j -> i ∈ xs -> j ∈ xs.
Proof.
  intros Hc. unfold closed' in Hc. rewrite forallb_forall in Hc.
  assert (Hstep : forall i j t u a b, i < j -> tr !! i = Some (t, a) -> tr !! j = Some (u, b) -> edge' tr i j = true -> i ∈ xs -> j ∈ xs).
  { clear i j. intros i j t u a b Hlt Hi Hj He Hin. apply elem_of_list_In in Hin. specialize (Hc _ Hin). rewrite forallb_forall in Hc.
    specialize (Hc j). rewrite in_seq in Hc. assert (Hjl : j < length tr) by (eapply lookup_lt_Some; eauto).
    specialize (Hc ltac:(lia)). rewrite He in Hc. cbn in Hc. apply existsb_exists in Hc as (x & Hx & E).
    apply Nat.eqb_eq in E as <-. apply elem_of_list_In. auto. }
  induction 1 as [i j t a b Hlt Hi Hj|i j t u a b Hlt Hi Hj Hs|i j k _ IH1 _ IH2]; auto.
  - apply (Hstep _ _ _ _ _ _ Hlt Hi Hj). unfold edge'. rewrite Hi, Hj, Nat.eqb_refl. reflexivity.
  - apply (Hstep _ _ _ _ _ _ Hlt Hi Hj). unfold edge'. rewrite Hi, Hj, (sync_all _ _ Hs). apply orb_true_r.
Qed.
Lemma not_ordered tr i j : closed' tr (after' tr i) = true -> existsb (Nat.eqb i) (after' tr i) = true -> existsb (Nat.eqb j) (after' tr i) = false -> ~ hb sw_life_all tr i j.
Proof.
  intros Hc Hi Hj Hb. eapply closed_hb' in Hb; [|exact Hc|].
  - apply elem_of_list_In in Hb. assert (existsb (Nat.eqb j) (after' tr i) = true); [|congruence].
    apply existsb_exists. exists j. rewrite Nat.eqb_refl. auto.
  - apply existsb_exists in Hi as (x & Hx' & E). apply Nat.eqb_eq in E as <-. apply elem_of_list_In. auto.
Qed.

(** ** Runs *)

(** One thread makes a signal, connects a slot and emits; when it is done, another
    thread disconnects the slot. *)
Definition z1_ps := [seqp [ONewSignal None; OConnect 0 (SrcFn (fn 1)) false; OEmit 0 []] OutUnit; seqp [OVar (VDisc 0)] OutUnit].
Definition z1_sched := sch [(0, 60); (1, 60)].
Definition z1 := Eval vm_compute in default ([], []) (life_log y1_env z1_ps z1_sched).
Lemma z1_lived : exists w, lived y1_env z1_ps w (snd z1) /\ w_log w = fst z1.
Proof. apply (life_log_lived _ _ z1_sched). vm_compute. reflexivity. Qed.

(** The same, but the other thread destroys the signal. *)
Definition z2_ps := [seqp [ONewSignal None; OConnect 0 (SrcFn (fn 1)) false; OEmit 0 []] OutUnit; seqp [ODestroySignal 0] OutUnit].
Definition z2 := Eval vm_compute in default ([], []) (life_log y1_env z2_ps z1_sched).
Lemma z2_lived : exists w, lived y1_env z2_ps w (snd z2) /\ w_log w = fst z2.
Proof. apply (life_log_lived _ _ z1_sched). vm_compute. reflexivity. Qed.

Lemma z1_open : ~ hb sw_life_all (snd z1) 26 49.
Proof. apply not_ordered; vm_compute; reflexivity. Qed.
Lemma destroyed_unordered : ~ (forall e ps w tr i j l t u, lived e ps w tr -> i < j ->
  tr !! i = Some (t, Rd (LSlot l)) -> tr !! j = Some (u, Wr (LSlot l)) -> hb sw_life_all tr i j).
Proof.
  intros H. destruct z1_lived as (w & Hw & _). apply z1_open. apply (H _ _ _ _ 26 49 0 0 1 Hw); [lia|vm_compute; reflexivity..].
Qed.

Lemma at_acc tr i l b t : tr !! i = Some (t, if b : bool then Wr l else Rd l) -> accesses tr i l b.
Proof. intros H. exists t. exact H. Qed.
Lemma ex_C69_life : exists w tr, lived y1_env z1_ps w tr /\ (exists i, EConn 0 0 0 i ∈ w_log w) /\ spec_alive (w_log w) 0 = false /\
  tr !! 6 = Some (0, Wr (LSlot 0)) /\ tr !! 26 = Some (0, Rd (LSlot 0)) /\ tr !! 49 = Some (1, Wr (LSlot 0)).
Proof.
  destruct z1_lived as (w & Hw & El). exists w, (snd z1). split; [exact Hw|]. rewrite El.
  split; [eexists; unfold z1; cbn [fst]; repeat first [apply elem_of_list_here|apply elem_of_list_further]|].
  split; [vm_compute; reflexivity|]. split; [vm_compute; reflexivity|]. split; vm_compute; reflexivity.
Qed.
Lemma ex_C69_last : exists w tr, lived y1_env z2_ps w tr /\ ~ taken_out (w_log w) 0 /\
  tr !! 26 = Some (0, Rd (LSlot 0)) /\ tr !! 36 = Some (1, Wr (LSlot 0)).
Proof.
  destruct z2_lived as (w & Hw & El). exists w, (snd z2). split; [exact Hw|]. rewrite El.
  split; [|split; vm_compute; reflexivity].
  intros [(t & s & l0 & H)|(t & s & H)]; unfold z2 in H; cbn [fst] in H; rewrite !elem_of_cons, elem_of_nil in H; destruct_or?; try discriminate; contradiction.
Qed.
Lemma life_all tr i j : hb sw_life tr i j -> hb sw_life_all tr i j.
Proof.
  induction 1 as [i j t a b Hlt Hi Hj|i j t u a b Hlt Hi Hj Hs|i j k _ IH1 _ IH2]; [eapply HB_thread; eauto| |eapply HB_trans; eauto].
  eapply HB_sync; eauto. apply LA_all. destruct Hs as [? ? []|l|l]; constructor.
Qed.
Lemma ex_C69_race : exists w tr, lived y1_env z1_ps w tr /\ race sw_life tr 26 49.
Proof.
  destruct z1_lived as (w & Hw & _). exists w, (snd z1). split; [exact Hw|]. exists 0, 1, (LSlot 0), false, true.
  split; [auto|]. split; [vm_compute; reflexivity|]. split; [vm_compute; reflexivity|]. split; [auto|]. split.
  - intros H. apply z1_open, life_all, H.
  - intros H. apply hb_lt in H. lia.
Qed.
