(** * The shape of stacks *)
From Verif Require Export InvList.

(** [AT P st]: [P] holds of every frame of [st] and the frames below it. *)
Fixpoint AT (P : frame -> list frame -> Prop) (st : list frame) : Prop :=
  match st with [] => True | f :: r => P f r /\ AT P r end.

Lemma AT_impl (P Q : frame -> list frame -> Prop) st :
  (forall f r, P f r -> Q f r) -> AT P st -> AT Q st.
Proof. intros H. induction st as [|f r IH]; cbn; [auto|]. intros [Hf Hr]. auto. Qed.

Lemma AT_elem P st f : AT P st -> f ∈ st -> exists r, P f r.
Proof.
  induction st as [|g r IH]; cbn; intros H Hf; [inversion Hf|].
  destruct H as [Hg Hr]. apply elem_of_cons in Hf as [->|Hf]; eauto.
Qed.

(** The frames a thread can be running. *)
Definition active (f : frame) : bool :=
  match f with
  | FRet _ | FProg _ | FDisc _ | FLock _ _ | FWrite _ _ | FBody _ _ _ | FUnlock _ _ | FErase _ _ _ _ _ _ => true
  | FSlot _ g _ _ _ _ => match g with SRun => false | _ => true end
  | _ => false
  end.

(** The frames that wait for client code. *)
Definition runs (r : list frame) : bool :=
  match r with
  | [] => true
  | g :: _ =>
      match g with
      | FWait _ | FDtor _ | FEraseCmp _ _ _ _ _ _ | FEmit _ _ _ _ => true
      | FSlot _ SRun _ _ _ _ => true
      | _ => false
      end
  end.

(** A disconnect through a handle of [l] returns to one of these. *)
Definition discs (l : lid) (r : list frame) : Prop :=
  match r with
  | FWait _ :: _ => True
  | FAssign _ _ l' :: _ | FAssignMv _ _ l' :: _ | FUnit l' :: _ => l' = l
  | _ => False
  end.

Definition waits (r : list frame) : bool := match r with FWait _ :: _ => true | _ => false end.

Definition crit_below (k : crit) (r : list frame) : Prop :=
  match k with
  | KAdd _ => match r with FMkConn _ :: _ => True | _ => False end
  | KRem l => match r with FRemRet l' :: _ => l' = l | _ => False end
  | _ => waits r = true
  end.

(** A critical section that returns [o] returns to one of these. *)
Definition unlock_below (o : out) (r : list frame) : Prop :=
  match r with
  | FWait _ :: _ => True
  | FMkConn _ :: _ => (exists l, o = OutId l) \/ o = oom
  | FRemRet _ :: _ => True
  | _ => False
  end.

Definition slot_out (o : out) : Prop := (exists z, o = OutOpt z) \/ (exists x, o = OutExn x).

Definition ret_below (o : out) (r : list frame) : Prop :=
  runs r = true \/ unlock_below o r \/
  match r with
  | FAssign _ _ _ :: _ | FAssignMv _ _ _ :: _ | FUnit _ :: _ | FTmp _ :: _ => True
  | FDeref _ _ _ :: _ | FCallRet :: _ => exists r a, o = OutCall r a /\ slot_out r
  | _ => False
  end.

Definition adj (f : frame) (r : list frame) : Prop :=
  match f with
  | FRet o => ret_below o r
  | FProg _ | FWait _ => runs r = true
  | FDeref _ _ _ => match r with FEmit _ _ _ _ :: _ => True | _ => False end
  | FDtor _ => match r with g :: _ => active g = true | [] => False end
  | FMkConn _ | FAssign _ _ _ | FAssignMv _ _ _ | FUnit _ | FTmp _ | FEmit _ _ _ _ | FCallRet
  | FErase _ _ _ _ _ _ | FEraseCmp _ _ _ _ _ _ => waits r = true
  | FDisc l | FRemRet l => discs l r
  | FLock _ k | FWrite _ k | FBody _ _ k => crit_below k r
  | FUnlock _ o => unlock_below o r
  | FSlot s _ _ _ eid _ =>
      match s, eid, r with
      | RSlot l, Some eid, FDeref _ _ l' :: FEmit _ eid' _ _ :: _ => l' = l /\ eid' = eid
      | RUser _, None, FCallRet :: _ => True
      | _, _, _ => False
      end
  end.

Definition is_active (st : list frame) : Prop := match st with f :: _ => active f = true | [] => False end.

Definition I_adj (w : world) : Prop :=
  forall t st, w_thr w !! t = Some st -> AT adj st /\ is_active st.

Lemma wrap_out e o o' : wrap e o = Some o' -> slot_out o'.
Proof. unfold wrap, slot_out. repeat case_match; intros; simplify_eq; eauto. Qed.

Lemma vop_after' w t v x l after :
  exec_vop w t v = VDo x l after ->
  (after = [] \/ (exists d m, after = [FAssign d m l]) \/ (exists d s, after = [FAssignMv d s l]) \/ after = [FUnit l]).
Proof.
  unfold exec_vop. intros H. destruct v; try discriminate; repeat (dm H; try discriminate);
    apply disc_res_after in H as (-> & _ & _); eauto 10.
Qed.

Lemma runs_weak o r : runs r = true -> ret_below o r.
Proof. left; auto. Qed.

Lemma AT_dtorish D st : dtorish D -> D = [] \/ (exists e w ds, D = flat_map (dtor_frames e w) ds) ->
  AT adj st -> is_active st -> AT adj (D ++ st) /\ is_active (D ++ st).
Proof.
  intros _ [->|(e & w & ds & ->)] HA Hi; [auto|].
  induction ds as [|d ds IH]; cbn; [auto|]. destruct IH as [IA IB].
  unfold dtor_frames at 1. unfold dtor_frames at 2. destruct (dtor_prog e w d) as [p|]; [|auto]. cbn.
  destruct (flat_map (dtor_frames e w) ds ++ st) as [|g r'] eqn:Hg; [contradiction|].
  cbn in *. auto.
Qed.

Ltac adj_auto :=
  repeat match goal with
  | H : _ /\ _ |- _ => destruct H
  | H : exists _, _ |- _ => destruct H
  end.

Lemma I_adj_inv e ps w : reachable e ps w -> I_adj w.
Proof.
  apply reach_ind.
  - intros t st Ht. cbn in Ht. rewrite list_lookup_fmap in Ht.
    destruct (ps !! t); cbn in Ht; simplify_eq. cbn. auto.
  - clear w. intros w t st w' st' Hr HI Ht Htr _.
    destruct (reap_spec e w w' t st') as (D & L & HD & HL & -> & HDeq & _).
    pose proof (trans_thr _ _ _ _ _ _ Htr) as Hthr.
    intros t' x Hx. wcbn_in Hx. rewrite Hthr in Hx.
    destruct (thr_upd _ _ _ _ _ _ Ht Hx) as [[-> ->]|[Hn Hx']]; [|eauto].
    apply AT_dtorish; auto; [eauto| |].
    + clear Hx HD HL HDeq D L. destruct (HI _ _ Ht) as [HA _]. clear HI Ht Hthr.
      destruct Htr; cbn [AT adj] in HA |- *; destruct_and?;
        repeat (match goal with |- _ /\ _ => split end); auto using runs_weak.
      all: try (left; assumption).
      all: try (left; reflexivity).
      all: try (right; left; cbn; auto; fail).
      all: try (right; right; exact I).
      * (* vdo *) destruct (vop_after' _ _ _ _ _ _ H) as [->|[(d & m & ->)|[(d & s & ->)| ->]]]; cbn; auto.
      * (* vdo tail *) destruct (vop_after' _ _ _ _ _ _ H) as [->|[(d & m & ->)|[(d & s & ->)| ->]]]; cbn; auto.
      * (* vdead *) destruct (vop_after' _ _ _ _ _ _ H) as [->|[(d & m & ->)|[(d & s & ->)| ->]]]; unfold ret_below; cbn; auto.
      * destruct (vop_after' _ _ _ _ _ _ H) as [->|[(d & m & ->)|[(d & s & ->)| ->]]]; cbn; auto.
      * (* begin *) destruct H; cbn; auto.
      * destruct H; cbn; auto.
      * (* skip *) destruct r, eid; cbn in *; try contradiction; repeat (case_match; try contradiction); subst;
          unfold ret_below, slot_out; cbn; eauto 10.
      * (* dead *) destruct r, eid; cbn in *; try contradiction; repeat (case_match; try contradiction); subst;
          unfold ret_below, slot_out; cbn; eauto 10.
      * cbn. auto.
      * unfold ret_below. destruct st as [|[] st]; cbn in *; try contradiction; auto.
      * destruct st as [|[] st]; cbn in *; try discriminate; auto.
      * destruct k; cbn in *; try contradiction; destruct st as [|[] st]; cbn in *; try discriminate; try contradiction; auto.
      * destruct st as [|[] st]; cbn in *; try contradiction; auto.
      * destruct st as [|[] st]; cbn in *; try contradiction; eauto.
      * destruct st as [|[] st]; cbn in *; try contradiction; auto.
      * destruct st as [|[] st]; cbn in *; try contradiction; auto.
      * destruct st as [|[] st]; cbn in *; try discriminate; auto.
      * unfold ret_below. destruct st as [|[] st]; cbn in *; try discriminate; auto.
      * unfold ret_below. destruct st as [|[] st]; cbn in *; try discriminate; auto.
      * unfold ret_below. destruct st as [|[] st]; cbn in *; try discriminate; auto.
      * unfold ret_below. destruct st as [|[] st]; cbn in *; try discriminate; auto.
      * unfold ret_below. destruct st as [|[] st]; cbn in *; try discriminate; auto.
      * unfold ret_below. destruct st as [|[] st]; cbn in *; try discriminate; auto.
      * unfold ret_below. destruct st as [|[] st]; cbn in *; try contradiction; auto.
      * unfold ret_below. destruct st as [|[] st]; cbn in *; try discriminate; auto.
      * destruct st as [|[] st]; cbn in *; try discriminate; auto.
      * unfold ret_below. destruct st as [|[] st]; cbn in *; try discriminate; auto.
      * apply wrap_out in H. destruct r, eid; cbn in *; try contradiction; repeat (case_match; try contradiction); subst;
          unfold ret_below; cbn; eauto 10.
      * unfold ret_below. destruct st as [|[] st]; cbn in *; try discriminate; auto.
    + destruct (HI _ _ Ht) as [HA _]. clear - HA Htr. destruct Htr; cbn [AT adj] in HA; destruct_and?; cbn; auto.
      * match goal with H : advances _ _ _ _ _ _ _ |- _ => destruct H; reflexivity end.
Qed.
