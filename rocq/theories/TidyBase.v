(** * Tidy clients never meet undefined behaviour *)
From Verif Require Import Reach InvSlot InvDeath InvRem InvUse InvFault InvSig InvOp.
From Verif Require Export SpecTidy.

Section tidy.
Context (e : env) (G : list thing) (caps : callable -> list thing).
Notation tidy := (tidy e G caps).

(** Owners: thread and height in its stack of the code that owns a variable. *)
Notation owners := (thing -> option (tid * nat)).

(** What a stack accepts as result of what runs above it. *)
Inductive acc :=
| ANew (mk : out -> list thing) (po : out -> Prop) (h : nat) | AConn (h : nat) | ABody | AEq | ADtor | ACall | AAll.

(** The variable has been made. *)
Definition there (w : world) (k : thing) : Prop :=
  match k with
  | TOwn s => s < length (w_sigs w)
  | TConn c => c < length (v_conns (w_vars w))
  | TBlk b => b < length (v_blks (w_vars w))
  | TSlot u => u < length (v_us (w_vars w))
  | TObj x => x < length (v_objs (w_vars w))
  | TLoc a => a < length (v_store (w_vars w))
  | _ => False
  end.

Section stacks.
Context (O : owners) (w : world) (t : tid).
Definition wf (h : nat) (own : list thing) : Prop :=
  forall th, th ∈ own -> lives w th /\ O (key th) = if linear th then Some (t, h) else None.
Definition slot_of (x : option (tid * nat)) (l : lid) : Prop :=
  exists r, w_slots w !! l = Some r /\ (O (TOwn (sl_sig r)) = None \/ O (TOwn (sl_sig r)) = x).
Definition below (p : nat) (th : thing) : Prop := O th = None \/ exists h, h < p /\ O th = Some (t, h).
Definition usable (p : nat) (s : sid) : Prop := signal_lives w s /\ below p (TOwn s).
Definition pinned (p : nat) (l : lid) : Prop := exists r, w_slots w !! l = Some r /\ below p (TOwn (sl_sig r)).
Definition args_ok (args : list arg) : Prop := forall th, th ∈ locs args -> lives w th /\ O (key th) = None.
Definition caps_ok (c : callable) : Prop := forall th, th ∈ caps c -> lives w th /\ O (key th) = None.
Definition ref_fine (r : slotref) (p : nat) : Prop :=
  match r with RSlot _ => True | RUser u => lives w (TFull u) /\ below p (TSlot u) end.
Definition accepts (a : acc) (o : out) : Prop :=
  match a with
  | ANew mk po h => wf h (mk o) /\ po o
  | AConn h => forall l, o = OutId l -> slot_of (Some (t, h)) l
  | ABody => returns_ok e o
  | AEq => eq_returns_ok o
  | ADtor => forall x, o <> OutExn x
  | ACall => forall r args, o = OutCall r args -> args_ok args
  | AAll => True
  end.
Definition open (a : acc) : Prop := match a with ANew mk po _ => forall o, mk o = [] /\ po o | AAll => True | _ => False end.
Definition seated (a : role) (st : list frame) (b : acc) : Prop :=
  match a with
  | Main => open b
  | Body r => b = ABody /\ exists args pin eid start st', st = FSlot r SRun args pin eid start :: st'
  | Combiner n => open b /\ exists s eid v args st', st = FEmit s eid v args :: st' /\ n = length (vec_of w v)
  | Equality => b = AEq \/ open b
  | Destructor => b = ADtor
  end.
Definition crit_ok (k : crit) (b : acc) (s : sid) : Prop :=
  match k with
  | KAdd i => (exists h, b = AConn h /\ (O (TOwn s) = None \/ O (TOwn s) = Some (t, h))) /\ caps_ok (im_c i)
  | KRem _ | KErase _ => open b
  | KRead args => open b /\ args_ok args
  | KMove => False
  end.
Inductive stk : list frame -> acc -> Prop :=
| S_nil : stk [] AAll
| S_wait k st a b own mk (po : out -> Prop) : stk st b -> seated a st b -> wf (length st) own -> (forall r, po r -> tidy a (mk r ++ own) (k r)) ->
    stk (FWait k :: st) (ANew mk po (length st))
| S_deref k pos l s eid v args st n own : stk (FEmit s eid v args :: st) AAll -> n = length (vec_of w v) -> wf (S (length st)) own ->
    (forall r, tidy (Combiner n) own (k r)) -> stk (FDeref k pos l :: FEmit s eid v args :: st) ACall
| S_dtor d st : fine st -> stk (FDtor d :: st) ADtor
| S_mkconn sc st mk (po : out -> Prop) h : stk st (ANew mk po h) -> (forall n, mk (OutId n) = [TConn n]) -> (forall n, ~ there w (TConn n) -> po (OutId n)) ->
    (forall o, (forall n, o <> OutId n) -> mk o = [] /\ po o) ->
    stk (FMkConn sc :: st) (AConn h)
| S_assign d m l st mk (po : out -> Prop) h : stk st (ANew mk po h) -> (forall o, mk o = [] /\ po o) -> there w (TConn d) -> O (TConn d) = Some (t, h) -> (forall l', m = Some l' -> slot_of (Some (t, h)) l') ->
    stk (FAssign d m l :: st) AAll
| S_assignmv d s l st mk (po : out -> Prop) h : stk st (ANew mk po h) -> (forall o, mk o = [] /\ po o) -> there w (TConn d) -> there w (TConn s) -> O (TConn d) = Some (t, h) -> O (TConn s) = Some (t, h) ->
    stk (FAssignMv d s l :: st) AAll
| S_unit l st b : stk st b -> open b -> stk (FUnit l :: st) AAll
| S_remret l st b : stk st b -> open b -> pinned (length st) l -> stk (FRemRet l :: st) AAll
| S_tmp l st b : stk st b -> pinned (length st) l -> stk (FTmp l :: st) b
| S_erasecmp s v tgt i n xs st b : stk st b -> open b -> usable (length st) s -> stk (FEraseCmp s v tgt i n xs :: st) AEq
| S_emit s eid v args st b : stk st b -> open b -> usable (length st) s -> args_ok args -> stk (FEmit s eid v args :: st) AAll
| S_slot r args pin eid start st : stk st ACall -> ref_fine r (length st) -> args_ok args -> stk (FSlot r SRun args pin eid start :: st) ABody
| S_callret st b : stk st b -> open b -> stk (FCallRet :: st) ACall
with fine : list frame -> Prop :=
| F_ret' o st b : stk st b -> accepts b o -> fine (FRet o :: st)
| F_prog p st b a own : stk st b -> seated a st b -> wf (length st) own -> tidy a own p -> fine (FProg p :: st)
| F_disc l st b : stk st b -> open b -> pinned (length st) l -> fine (FDisc l :: st)
| F_lock s k st b : stk st b -> usable (length st) s -> crit_ok k b s -> fine (FLock s k :: st)
| F_write s k st b : stk st b -> usable (length st) s -> crit_ok k b s -> fine (FWrite s k :: st)
| F_body s v k st b : stk st b -> usable (length st) s -> crit_ok k b s -> fine (FBody s v k :: st)
| F_unlock s o st b : stk st b -> usable (length st) s -> accepts b o -> fine (FUnlock s o :: st)
| F_erase s v tgt i n xs st b : stk st b -> open b -> usable (length st) s -> fine (FErase s v tgt i n xs :: st)
| F_slot r g args pin eid start st : stk st ACall -> ref_fine r (length st) -> args_ok args -> fine (FSlot r g args pin eid start :: st).

Scheme stk_ind' := Induction for stk Sort Prop
with fine_ind' := Induction for fine Sort Prop.
Combined Scheme stk_fine_ind from stk_ind', fine_ind'.

Lemma accepts_return a st b o : seated a st b -> may_return e a o -> accepts b o.
Proof.
  destruct a; cbn.
  - destruct b; cbn; try contradiction; [|tauto]. intros Hb _. destruct (Hb o) as [-> Hp]. split; [|exact Hp]. intros th Hth. inversion Hth.
  - intros [-> _]. auto.
  - intros [Hb _] _. destruct b; cbn in *; try contradiction; [|tauto]. destruct (Hb o) as [-> Hp]. split; [|exact Hp]. intros th Hth. inversion Hth.
  - intros [->|Hb] Ho; [exact Ho|]. destruct b; cbn in *; try contradiction; [|tauto]. destruct (Hb o) as [-> Hp]. split; [|exact Hp]. intros th Hth. inversion Hth.
  - intros -> Ho. exact Ho.
Qed.
Lemma open_accepts b o : open b -> accepts b o.
Proof. destruct b; cbn; try contradiction; [|tauto]. intros Hb. destruct (Hb o) as [-> Hp]. split; [|exact Hp]. intros th Hth. inversion Hth. Qed.
End stacks.

(** ** The parts of the state a stack depends on *)
Lemma lives_there w th : lives w th -> there w (key th).
Proof.
  destruct th; cbn.
  - intros (r & Hr & _). eapply lookup_lt_Some; eauto.
  - intros (r & Hr & _). eapply lookup_lt_Some; eauto.
  - intros [z Hz]. eapply lookup_lt_Some; eauto.
  - intros (r & Hr & _). eapply lookup_lt_Some; eauto.
  - intros (r & Hr & _). eapply lookup_lt_Some; eauto.
  - intros (r & Hr & _). eapply lookup_lt_Some; eauto.
  - intros [(r & Hr & _) _]. eapply lookup_lt_Some; eauto.
  - apply lookup_lt_Some.
Qed.
Definition agree (O O' : owners) (w : world) : Prop := forall k, there w k -> O' k = O k.
Definition kept (O : owners) (w w' : world) (t : tid) (h : nat) : Prop :=
  forall th, lives w th -> O (key th) <> Some (t, h) -> lives w' th.
Definition same_slots (w w' : world) : Prop :=
  forall l r, w_slots w !! l = Some r -> exists r', w_slots w' !! l = Some r' /\ sl_sig r' = sl_sig r /\ im_c (sl_impl r') = im_c (sl_impl r).
Definition sigs_there (w : world) : Prop := forall l r, w_slots w !! l = Some r -> sl_sig r < length (w_sigs w).

Section mono.
Context (O O' : owners) (w w' : world) (t t' : tid) (h : nat).
Hypothesis HA : agree O O' w.
Hypothesis HK : kept O w w' t h.
Hypothesis HS : same_slots w w'.
Hypothesis HT : sigs_there w.
Hypothesis HM : forall k, there w k -> there w' k.

Lemma below_eq p k : O' k = O k -> below O t' p k -> below O' t' p k.
Proof. unfold below. intros ->. auto. Qed.
Lemma wf_mono p own : (t' <> t \/ p < h) -> wf O w t' p own -> wf O' w' t' p own.
Proof.
  intros Hp H th Hth. destruct (H th Hth) as [H1 H2]. split.
  - apply HK; [exact H1|]. rewrite H2. destruct (linear th); [|discriminate]. intros [= -> ->]. destruct Hp; [contradiction|lia].
  - rewrite HA by (apply lives_there; exact H1). exact H2.
Qed.
Lemma slot_of_mono x l : slot_of O w x l -> slot_of O' w' x l.
Proof.
  intros (r & Hr & Ho). destruct (HS l r Hr) as (r' & Hr' & Es & _). exists r'. split; [exact Hr'|]. rewrite Es.
  rewrite HA by (exact (HT l r Hr)). exact Ho.
Qed.
Lemma pinned_mono p l : pinned O w t' p l -> pinned O' w' t' p l.
Proof.
  intros (r & Hr & Ho). destruct (HS l r Hr) as (r' & Hr' & Es & _). exists r'. split; [exact Hr'|]. rewrite Es.
  eapply below_eq; [exact (HA (TOwn _) (HT l r Hr))|exact Ho].
Qed.
Lemma below_lives p th : (t' <> t \/ p <= h) -> lives w th -> below O t' p (key th) -> lives w' th /\ below O' t' p (key th).
Proof.
  intros Hp Hl Hb. split.
  - apply HK; [exact Hl|]. destruct Hb as [->|(h' & Hh & ->)]; [discriminate|]. intros [= -> ->]. destruct Hp; [contradiction|lia].
  - eapply below_eq; [apply HA, lives_there, Hl|exact Hb].
Qed.
Lemma usable_mono p s : (t' <> t \/ p <= h) -> usable O w t' p s -> usable O' w' t' p s.
Proof. intros Hp [H1 H2]. exact (below_lives p (TOwn s) Hp H1 H2). Qed.
Lemma shared_mono th : lives w th -> O (key th) = None -> lives w' th /\ O' (key th) = None.
Proof. intros H1 H2. split; [apply HK; [exact H1|congruence]|]. rewrite HA by (apply lives_there; exact H1). exact H2. Qed.
Lemma args_mono args : args_ok O w args -> args_ok O' w' args.
Proof. intros H th Hth. destruct (H th Hth). apply shared_mono; auto. Qed.
Lemma caps_mono c : caps_ok O w c -> caps_ok O' w' c.
Proof. intros H th Hth. destruct (H th Hth). apply shared_mono; auto. Qed.
Lemma ref_mono r p : (t' <> t \/ p <= h) -> ref_fine O w t' r p -> ref_fine O' w' t' r p.
Proof. intros Hp. destruct r as [l|u]; [auto|]. intros [H1 H2]. exact (below_lives p (TFull u) Hp H1 H2). Qed.
Definition acc_height (a : acc) (p : nat) : Prop := match a with ANew _ _ h' | AConn h' => h' < p | _ => True end.
Lemma accepts_mono a o p : acc_height a p -> (t' <> t \/ p <= h) -> accepts O w t' a o -> accepts O' w' t' a o.
Proof.
  intros Ha Hp. destruct a; cbn in *; auto.
  - intros [H1 H2]. split; [|exact H2]. eapply wf_mono; [|exact H1]. destruct Hp; [auto|right; lia].
  - intros H l E. apply slot_of_mono. auto.
  - intros H r args E. apply args_mono. eauto.
Qed.
Lemma crit_mono k b s p : (t' <> t \/ p <= h) -> usable O w t' p s -> crit_ok O w t' k b s -> crit_ok O' w' t' k b s.
Proof.
  intros Hp [Hu _]. destruct k; cbn; auto.
  - intros [(h' & -> & Ho) Hc]. split; [|apply caps_mono; exact Hc]. exists h'. split; [reflexivity|].
    rewrite HA by (exact (lives_there w (TOwn s) Hu)). exact Ho.
  - intros [Hb Ha]. split; [exact Hb|apply args_mono; exact Ha].
Qed.

Lemma stk_height st a : stk O w t' st a -> acc_height a (length st).
Proof. induction 1; cbn in *; auto; try lia. destruct b; cbn in *; auto. Qed.

Definition vecs_same (st : list frame) : Prop := forall s eid v a, FEmit s eid v a ∈ st -> vec_of w' v = vec_of w v.
Lemma seated_mono a st b : vecs_same st -> seated w a st b -> seated w' a st b.
Proof.
  intros Hv. destruct a; cbn; auto. intros [Hb (s & eid & v & args & st' & -> & Hn)]. split; [exact Hb|].
  exists s, eid, v, args, st'. split; [reflexivity|]. rewrite (Hv s eid v args); [exact Hn|apply elem_of_list_here].
Qed.
Lemma mono : (forall st a, stk O w t' st a -> (t' <> t \/ length st <= h) -> vecs_same st -> stk O' w' t' st a) /\
  (forall st, fine O w t' st -> (t' <> t \/ length st <= h) -> vecs_same st -> fine O' w' t' st).
Proof.
  assert (Hl : forall f (st : list frame), t' <> t \/ length (f :: st) <= h -> t' <> t \/ length st <= h) by (intros f st [?|?]; [auto|right; cbn in *; lia]).
  assert (Hl' : forall f (st : list frame), t' <> t \/ length (f :: st) <= h -> t' <> t \/ length st < h) by (intros f st [?|?]; [auto|right; cbn in *; lia]).
  assert (Hv : forall f (st : list frame), vecs_same (f :: st) -> vecs_same st) by (intros f st H s eid v a Hin; eapply H; apply elem_of_list_further; exact Hin).
  apply stk_fine_ind; intros.
  - constructor.
  - econstructor; eauto using seated_mono, wf_mono.
  - match goal with H : n = _, Hs : vecs_same _ |- _ => rename H into Hn; rename Hs into Hvs end. eapply (S_deref _ _ _ _ _ _ _ _ _ _ _ n own); eauto.
    + rewrite Hn. f_equal. symmetry. eapply Hvs. apply elem_of_list_further, elem_of_list_here.
    + eapply wf_mono; [|eassumption]. match goal with H : _ \/ _ |- _ => destruct H; [auto|right; cbn in *; lia] end.
  - constructor; eauto.
  - econstructor; eauto.
  - econstructor; eauto.
    + rewrite HA; assumption.
    + intros l' E. apply slot_of_mono. auto.
  - econstructor; eauto; rewrite HA; assumption.
  - econstructor; eauto.
  - econstructor; eauto using pinned_mono.
  - econstructor; eauto using pinned_mono.
  - econstructor; eauto using usable_mono.
  - econstructor; eauto using usable_mono, args_mono.
  - econstructor; eauto using ref_mono, args_mono.
  - econstructor; eauto.
  - econstructor; [eauto|]. eapply accepts_mono; [eapply stk_height; eassumption|eauto|assumption].
  - econstructor; eauto using seated_mono, wf_mono.
  - econstructor; eauto using pinned_mono.
  - econstructor; eauto using usable_mono, crit_mono.
  - econstructor; eauto using usable_mono, crit_mono.
  - econstructor; eauto using usable_mono, crit_mono.
  - econstructor; [eauto|eauto using usable_mono|]. eapply accepts_mono; [eapply stk_height; eassumption|eauto|assumption].
  - econstructor; eauto using usable_mono.
  - econstructor; eauto using ref_mono, args_mono.
Qed.
End mono.

(** ** Operations on variables *)
Definition loses (v : vop) (th : thing) : Prop :=
  match v with
  | VDestroyConn c => th = TConn c
  | VBDestroy b => th = TBlk b
  | VResetObj x => th = TObj x
  | VSlotDestroy u => th = TSlot u \/ th = TFull u
  | VSlotMove u => th = TFull u
  | VSlotAssignMove d s => d <> s /\ (th = TFull s \/ th = TFull d)
  | _ => False
  end.
Definition vars_after (r : vres) : option vars := match r with VOk x _ _ | VDo x _ _ => Some x | VBad _ => None end.

(** Variables are only added, and live on unless they are destroyed. *)
Definition holds_at {A} (P : A -> Prop) (xs : list A) (i : nat) : Prop := exists r, xs !! i = Some r /\ P r.
Lemma at_app {A} (P : A -> Prop) xs ys i : holds_at P xs i -> holds_at P (xs ++ ys) i.
Proof. intros (r & Hr & HP). exists r. split; [apply lookup_app_l_Some; exact Hr|exact HP]. Qed.
Lemma at_alter {A} (P : A -> Prop) f j xs i : (i = j -> forall r, P r -> P (f r)) -> holds_at P xs i -> holds_at P (alter f j xs) i.
Proof.
  intros Hf (r & Hr & HP). destruct (decide (i = j)) as [->|Hn].
  - exists (f r). split; [rewrite list_lookup_alter, Hr; reflexivity|apply Hf; auto].
  - exists r. split; [rewrite list_lookup_alter_ne by auto; exact Hr|exact HP].
Qed.
Lemma at_insert {A} (P : A -> Prop) y j xs i : (i = j -> P y) -> holds_at P xs i -> holds_at P (<[j := y]> xs) i.
Proof.
  intros Hf (r & Hr & HP). destruct (decide (i = j)) as [->|Hn].
  - exists y. split; [apply list_lookup_insert; eapply lookup_lt_Some; eauto|auto].
  - exists r. split; [rewrite list_lookup_insert_ne by auto; exact Hr|exact HP].
Qed.
Lemma at_new {A} (P : A -> Prop) y xs i : i = length xs -> P y -> holds_at P (xs ++ [y]) i.
Proof. intros -> HP. exists y. split; [apply list_lookup_middle; reflexivity|exact HP]. Qed.
Definition vlives (x : vars) (th : thing) : Prop :=
  match th with
  | TSig _ | TOwn _ => True
  | TLoc a => holds_at (fun _ => True) (v_store x) a
  | TConn c => holds_at (fun r => cn_live r = true) (v_conns x) c
  | TBlk b => holds_at (fun r => bk_live r = true) (v_blks x) b
  | TSlot u => holds_at (fun r => us_live r = true) (v_us x) u
  | TFull u => holds_at (fun r => us_live r = true /\ is_Some (us_impl r)) (v_us x) u
  | TObj o => holds_at (fun b => b = true) (v_objs x) o
  end.
Lemma full_lives w u : lives w (TFull u) <-> vlives (w_vars w) (TFull u).
Proof.
  cbn. unfold slot_lives, slot_null. split.
  - intros [(r & Hr & Hl) Hn]. exists r. split; [exact Hr|]. split; [exact Hl|]. destruct (us_impl r) as [i|] eqn:Ei; [eauto|]. exfalso. apply Hn. eauto.
  - intros (r & Hr & Hl & [i Hi]). split; [eauto|]. intros (r' & Hr' & Hn). congruence.
Qed.
Lemma lives_iff w th : lives w th <-> vlives (w_vars w) th /\ forall s, th = TSig s \/ th = TOwn s -> signal_lives w s.
Proof.
  destruct th; try (split; [intros H; split; [exact H|intros ? [?|?]; discriminate]|intros [H _]; exact H]; fail).
  - split; [intros H; split; [exact I|intros ? [[= <-]|?]; [exact H|discriminate]]|intros [_ H]; apply H; auto].
  - split; [intros H; split; [exact I|intros ? [?|[= <-]]; [discriminate|exact H]]|intros [_ H]; apply H; auto].
  - cbn. split; [intros [z H]; split; [exists z; auto|intros ? [?|?]; discriminate]|intros [(z & H & _) _]; eauto].
  - rewrite full_lives. split; [intros H; split; [exact H|intros ? [?|?]; discriminate]|intros [H _]; exact H].
  - cbn. split; [intros H; split; [eexists; eauto|intros ? [?|?]; discriminate]|intros [(z & H & ->) _]; exact H].
Qed.

Lemma vop_vlives w t v x th : vars_after (exec_vop w t v) = Some x -> vlives (w_vars w) th -> ~ loses v th -> vlives x th.
Proof.
  unfold exec_vop. cbv zeta. intros H Hl Hn.
  destruct v; cbn in H; unfold disc_res in H; repeat (dm H; try discriminate); cbn in H; simplify_eq;
    destruct th; cbn [vlives v_conns v_blks v_us v_objs v_store add_conn add_blk add_us put_conn put_blk put_us kill_conn kill_blk kill_us
      set_conns set_blks set_us set_objs set_store] in *; try exact Hl;
    repeat first [apply at_app | apply at_alter; [intros Heq r Hr; cbn in *; tauto|] | apply at_insert; [intros Heq; cbn in *; tauto|]];
    try exact Hl; try (apply at_alter; [|exact Hl]; intros ->; cbn in Hn; tauto).
  all: try (apply at_insert; [|exact Hl]; intros ->; cbn in Hn; tauto).
  - apply bool_decide_eq_false in Heqb. apply at_alter; [intros ->; cbn in Hn; tauto|]. apply at_alter; [intros ->; cbn in Hn; tauto|]. exact Hl.
  - apply at_alter; [|exact Hl]. intros -> r [H1 [i Hi]]. split; [exact H1|]. destruct Hl as (r1 & Hr1 & _ & [i1 Hi1]).
    match goal with Hg : get_us _ _ = Some _ |- _ => unfold get_us in Hg; rewrite Hr1 in Hg; destruct (us_live r1); [|discriminate]; injection Hg as <- end.
    cbn. rewrite Hi1. eauto.
  - apply at_alter; [|exact Hl]. intros -> r [H1 [i Hi]]. split; [exact H1|]. destruct Hl as (r1 & Hr1 & _ & [i1 Hi1]).
    match goal with Hg : get_us _ _ = Some _ |- _ => unfold get_us in Hg; rewrite Hr1 in Hg; destruct (us_live r1); [|discriminate]; injection Hg as <- end.
    cbn. rewrite Hi1. eauto.
Qed.

Lemma vop_gained w t v x o ef keep own th : exec_vop w t v = VOk x o ef -> (forall u, TFull u ∈ own -> vlives (w_vars w) (TFull u)) ->
  th ∈ gained keep own (OVar v) o -> vlives x th /\ (~ there w (key th) \/ exists u, v = VSlotBool u /\ th = TFull u /\ TSlot u ∈ own).
Proof.
  unfold exec_vop. cbv zeta. intros H Hf Hth.
  destruct v; unfold disc_res in H; repeat (dm H; try discriminate); simplify_eq; cbn [gained] in Hth;
    try (destruct (slot_alive w _); inversion Hth; fail); try (inversion Hth; fail);
    try (apply elem_of_list_singleton in Hth as ->; split; [apply at_new; [cbn; rewrite ?alter_length; reflexivity|cbn; eauto]|left; cbn; lia]; fail).
  all: try (destruct (slot_alive w _ && _); inversion Hth; fail).
  all: try (repeat case_match; simplify_eq; inversion Hth; fail).
  - destruct (bool_decide (TFull u ∈ own)) eqn:Ed; apply elem_of_list_singleton in Hth as ->; (split; [|left; cbn; lia]).
    + apply bool_decide_eq_true in Ed. destruct (Hf _ Ed) as (r & Hr & Hl & Hi). apply at_new; [cbn; rewrite alter_length; reflexivity|]. cbn.
      match goal with Hg : get_us _ _ = Some _ |- _ => unfold get_us in Hg; rewrite Hr in Hg; destruct (us_live r); [|discriminate]; injection Hg as <- end. auto.
    + apply at_new; [cbn; rewrite alter_length; reflexivity|]. reflexivity.
  - rename Heqo1 into Ei. destruct (bool_decide (TSlot u ∈ own)) eqn:Ed; [|inversion Hth].
    apply elem_of_list_singleton in Hth as ->. apply bool_decide_eq_true in Ed. split; [|right; eauto].
    match goal with Hg : get_us _ _ = Some _ |- _ => unfold get_us in Hg; destruct (v_us (w_vars w) !! u) as [r|] eqn:Er; [|discriminate]; destruct (us_live r) eqn:El; [|discriminate]; injection Hg as <- end.
    exists r. rewrite Ei. eauto.
Qed.
Lemma vop_do_gained w t v x l after keep own r : exec_vop w t v = VDo x l after -> gained keep own (OVar v) r = [].
Proof.
  unfold exec_vop. cbv zeta. intros H.
  destruct v; unfold disc_res in H; repeat (dm H; try discriminate); simplify_eq; cbn [gained]; destruct r as [|[]| | | | | | |]; reflexivity.
Qed.

Lemma without_elem th x own : th ∈ without x own <-> th ∈ own /\ th <> x.
Proof. unfold without. rewrite elem_of_list_filter. tauto. Qed.
Lemma vop_left w t v x own th : vop_ok G caps own v -> vars_after (exec_vop w t v) = Some x -> (forall th, th ∈ own -> vlives (w_vars w) th) ->
  th ∈ left own (OVar v) -> vlives x th /\ exists th', th' ∈ own /\ key th' = key th /\ linear th' = linear th.
Proof.
  intros Hok Hx Hl Hth.
  assert (Hkeep : th ∈ own -> ~ loses v th -> vlives x th /\ exists th', th' ∈ own /\ key th' = key th /\ linear th' = linear th).
  { intros H1 H2. split; [eapply vop_vlives; eauto|eauto]. }
  assert (Hslot : forall u, has own (TSlot u) -> (forall u', v <> VSlotDestroy u') -> vlives x (TSlot u) /\ exists th', th' ∈ own /\ key th' = key (TSlot u) /\ linear th' = linear (TSlot u)).
  { intros u Hh Hv. assert (Hu : vlives (w_vars w) (TSlot u)).
    { destruct Hh as [Hh|(u' & [= <-] & Hh)]; [exact (Hl _ Hh)|]. destruct (Hl _ Hh) as (r & Hr & Hli & _). exists r. auto. }
    split; [eapply vop_vlives; [exact Hx|exact Hu|]|].
    - destruct v; cbn; try congruence; try tauto; try (intros [=]; fail); try (exfalso; eapply Hv; reflexivity); intros [_ [[=]|[=]]].
    - destruct Hh as [Hh|(u' & [= <-] & Hh)]; eauto. }
  destruct v; cbn [left] in Hth; try (apply Hkeep; [exact Hth|cbn; tauto]; fail);
    try (apply without_elem in Hth as [H1 H2]; apply Hkeep; [exact H1|exact H2]; fail).
  - apply elem_of_cons in Hth as [->|Hth]; [apply Hslot; [exact Hok|discriminate]|].
    apply without_elem in Hth as [H1 H2]. apply Hkeep; [exact H1|exact H2].
  - case_bool_decide as Ed; [apply Hkeep; [exact Hth|cbn; tauto]|]. destruct Hok as [Hd Hs].
    apply elem_of_app in Hth as [Hth|Hth].
    + case_bool_decide as Ef; [|inversion Hth]. apply elem_of_list_singleton in Hth as ->. split.
      * destruct (Hl _ Ef) as (r & Hr & Hli & Hi). assert (Hdl : vlives (w_vars w) (TSlot d)).
        { destruct Hd as [Hd|(u' & [= <-] & Hd)]; [exact (Hl _ Hd)|]. destruct (Hl _ Hd) as (r' & Hr' & Hli' & _). exists r'. auto. }
        destruct Hdl as (rd & Hrd & Hld). unfold exec_vop, get_us in Hx. cbv zeta in Hx. rewrite Hr, Hrd, Hli, Hld in Hx. cbn in Hx. rewrite bool_decide_false in Hx by auto.
        injection Hx as <-. exists (UsV true (us_impl r)). split; [|split; [reflexivity|exact Hi]]. cbn.
        rewrite list_lookup_alter, list_lookup_alter_ne, Hrd by auto. cbn. rewrite Hld. reflexivity.
      * destruct Hd as [Hd|(u' & [= <-] & Hd)]; eauto.
    + apply elem_of_cons in Hth as [->|Hth]; [apply Hslot; [exact Hd|discriminate]|].
      apply elem_of_cons in Hth as [->|Hth]; [apply Hslot; [exact Hs|discriminate]|].
      apply without_elem in Hth as [H1 H2]. apply without_elem in H1 as [H1 H3]. apply Hkeep; [exact H1|]. cbn. tauto.
  - apply without_elem in Hth as [H1 H2]. apply without_elem in H1 as [H1 H3]. apply Hkeep; [exact H1|]. cbn. tauto.
Qed.
End tidy.
