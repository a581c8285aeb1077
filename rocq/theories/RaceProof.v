(** * Proof of the ordering of accesses *)
From Verif Require Export SpecRace InvSig.
From Verif Require Import InvFields.

Notation blk t := (fmap (fun a : act => (t : tid, a))).

Definition act_loc (a : act) : option (loc * bool) :=
  match a with Rd l => Some (l, false) | Wr l => Some (l, true) | _ => None end.

Section proof.
Context (sw : act -> act -> Prop) (uses : Prop).
Context (Hlock : forall s, sw (Rel (YLock s)) (Acq (YLock s))).
Context (Hcount : forall v, sw (Rel (YCount v)) (Acq (YCount v))).
Context (Huse : uses -> forall v, sw (Rel (YCount v)) (Use v)).
Notation hb := (hb sw).
Notation acc := accesses.

Lemma hb_lt tr i j : hb tr i j -> i < j.
Proof. induction 1; lia. Qed.
Lemma hb_mono tr x i j : hb tr i j -> hb (tr ++ x) i j.
Proof.
  induction 1 as [i j t a b Hlt Hi Hj|i j t u a b Hlt Hi Hj Hs|i j k _ IH1 _ IH2].
  - eapply HB_thread; eauto using lookup_app_l_Some.
  - eapply HB_sync; eauto using lookup_app_l_Some.
  - eapply HB_trans; eauto.
Qed.

Definition known (tr : list (tid * act)) (t : tid) (i : nat) : Prop :=
  exists k a, tr !! k = Some (t, a) /\ (i = k \/ hb tr i k).
Definition publ (tr : list (tid * act)) (o : sobj) (i : nat) : Prop :=
  exists k t, tr !! k = Some (t, Rel o) /\ (i = k \/ hb tr i k).

Lemma known_mono tr x t i : known tr t i -> known (tr ++ x) t i.
Proof. intros (k & a & Hk & Hi). exists k, a. split; [apply lookup_app_l_Some; auto|]. destruct Hi; auto using hb_mono. Qed.
Lemma publ_mono tr x o i : publ tr o i -> publ (tr ++ x) o i.
Proof. intros (k & a & Hk & Hi). exists k, a. split; [apply lookup_app_l_Some; auto|]. destruct Hi; auto using hb_mono. Qed.

Lemma blk_cons tr t a as_ : tr ++ blk t (a :: as_) = (tr ++ [(t, a)]) ++ blk t as_.
Proof. rewrite <- app_assoc. reflexivity. Qed.
Lemma blk_app tr t a b : tr ++ blk t (a ++ b) = (tr ++ blk t a) ++ blk t b.
Proof. rewrite fmap_app, app_assoc. reflexivity. Qed.

Lemma known_hb tr t i a : known tr t i -> hb (tr ++ [(t, a)]) i (length tr).
Proof.
  intros (k & b & Hk & Hi). assert (Hlt : k < length tr) by (eapply lookup_lt_Some; eauto).
  assert (Hkl : hb (tr ++ [(t, a)]) k (length tr)).
  { eapply HB_thread; [exact Hlt|apply lookup_app_l_Some; eauto|]. rewrite lookup_app_r, Nat.sub_diag by lia. reflexivity. }
  destruct Hi as [->|Hi]; [auto|]. eapply HB_trans; [apply hb_mono; exact Hi|exact Hkl].
Qed.

Lemma publ_known tr t o a i : publ tr o i -> sw (Rel o) a -> known (tr ++ [(t, a)]) t i.
Proof.
  intros (k & u & Hk & Hi) Hs. assert (Hlt : k < length tr) by (eapply lookup_lt_Some; eauto).
  assert (Hl : (tr ++ [(t, a)]) !! length tr = Some (t, a)) by (rewrite lookup_app_r, Nat.sub_diag by lia; reflexivity).
  assert (Hkl : hb (tr ++ [(t, a)]) k (length tr)).
  { eapply HB_sync; [exact Hlt|apply lookup_app_l_Some; eauto|exact Hl|exact Hs]. }
  exists (length tr), a. split; [exact Hl|]. right. destruct Hi as [->|Hi]; [auto|].
  eapply HB_trans; [apply hb_mono; exact Hi|exact Hkl].
Qed.

Lemma known_publ tr t o i : known tr t i -> publ (tr ++ [(t, Rel o)]) o i.
Proof.
  intros Hk. exists (length tr), t. split; [rewrite lookup_app_r, Nat.sub_diag by lia; reflexivity|].
  right. apply known_hb. auto.
Qed.

Lemma publ_known_blk tr t o a as_ i : a ∈ as_ -> publ tr o i -> sw (Rel o) a -> known (tr ++ blk t as_) t i.
Proof.
  intros Ha Hp Hs. apply elem_of_list_split in Ha as (a1 & a2 & ->).
  rewrite blk_app, blk_cons. apply known_mono. eapply publ_known; eauto using publ_mono.
Qed.

(** An access of the longer run is an old one, or one of the new ones. *)
Lemma acc_app tr t as_ i l b : acc (tr ++ blk t as_) i l b ->
  acc tr i l b \/ ((if b then Wr l else Rd l) ∈ as_ /\ known (tr ++ blk t as_) t i).
Proof.
  intros [u Hu]. destruct (decide (i < length tr)) as [Hi|Hi].
  - rewrite lookup_app_l in Hu by auto. left. exists u. auto.
  - right. pose proof Hu as Hu'. rewrite lookup_app_r, list_lookup_fmap in Hu' by lia.
    destruct (as_ !! (i - length tr)) as [a|] eqn:Ha; cbn in Hu'; [|discriminate]. simplify_eq.
    split; [eapply elem_of_list_lookup_2; eauto|]. eexists _, _. split; [exact Hu|auto].
Qed.

Lemma acc_mono tr x i l b : acc tr i l b -> acc (tr ++ x) i l b.
Proof. intros [u Hu]. exists u. apply lookup_app_l_Some. auto. Qed.

Lemma publ_app tr t as_ o i : (forall a, a ∈ as_ -> a <> Rel o) -> publ (tr ++ blk t as_) o i -> publ tr o i.
Proof.
  intros Hn (k & u & Hk & Hi). destruct (decide (k < length tr)) as [Hlt|Hge].
  - rewrite lookup_app_l in Hk by auto. exists k, u. split; [exact Hk|]. destruct Hi as [->|Hi]; [auto|right].
    clear Hk. remember (tr ++ blk t as_) as tr' eqn:E. induction Hi as [i j v a b Hl Hi Hj|i j v x a b Hl Hi Hj Hs|i j k H1 IH1 H2 IH2]; subst tr'.
    + rewrite lookup_app_l in Hi, Hj by lia. eapply HB_thread; eauto.
    + rewrite lookup_app_l in Hi, Hj by lia. eapply HB_sync; eauto.
    + pose proof (hb_lt _ _ _ H2). eapply HB_trans; [apply IH1; auto; lia|apply IH2; auto].
  - rewrite lookup_app_r, list_lookup_fmap in Hk by lia.
    destruct (as_ !! (k - length tr)) as [a|] eqn:Ha; cbn in Hk; [|discriminate]. simplify_eq.
    exfalso. eapply Hn; [eapply elem_of_list_lookup_2; eauto|reflexivity].
Qed.

(** ** The claim *)
Definition covered (l : loc) (a b : bool) : Prop :=
  (a = true \/ b = true) /\ match l with LVec _ => a = true \/ uses | LSlot _ | LObj _ => False | _ => True end.
Definition good (tr : list (tid * act)) : Prop :=
  forall i j l a b, i < j -> acc tr i l a -> acc tr j l b -> covered l a b -> hb tr i j.

Lemma good_snoc tr t a : good tr ->
  (forall l (b : bool), a = (if b then Wr l else Rd l) -> forall i a', acc tr i l a' -> covered l a' b -> known tr t i) ->
  good (tr ++ [(t, a)]).
Proof.
  intros Hg Ha i j l x y Hlt [u Hi] [u' Hj] Hc.
  assert (Hjl : j < length (tr ++ [(t, a)])) by (eapply lookup_lt_Some; eauto). rewrite app_length in Hjl. cbn in Hjl.
  destruct (decide (j < length tr)) as [Hj'|Hj'].
  - rewrite lookup_app_l in Hi, Hj by lia. apply hb_mono. eapply Hg; [exact Hlt| | |exact Hc]; eexists; eauto.
  - assert (j = length tr) as -> by lia. rewrite lookup_app_l in Hi by lia.
    rewrite lookup_app_r, Nat.sub_diag in Hj by lia. cbn in Hj. injection Hj as <- Hj. apply known_hb.
    eapply Ha; [exact Hj|eexists; exact Hi|exact Hc].
Qed.

Lemma good_blk tr t as_ : good tr ->
  (forall l (b : bool), (if b then Wr l else Rd l) ∈ as_ -> forall i a', acc tr i l a' -> covered l a' b -> known tr t i) ->
  good (tr ++ blk t as_).
Proof.
  revert tr. induction as_ as [|a as_ IH]; intros tr Hg Ha; [rewrite app_nil_r; exact Hg|].
  rewrite blk_cons. apply IH.
  - apply good_snoc; [exact Hg|]. intros l b ->. apply Ha. apply elem_of_list_here.
  - intros l b Hin i a' Hi Hc. change [(t, a)] with (blk t [a]) in *. apply acc_app in Hi as [Hi|[_ Hk]]; [|exact Hk].
    apply known_mono. eapply Ha; [apply elem_of_list_further; exact Hin|exact Hi|exact Hc].
Qed.

(** ** The invariant *)
Definition sealed (tr : list (tid * act)) (s : sid) (r : sigrec) (i : nat) : Prop :=
  match sg_lock r with Some t => known tr t i | None => publ tr (YLock s) i end.
Definition home (w : world) (s : sid) (l : lid) : Prop :=
  l ∈ cur w s \/ exists r, w_slots w !! l = Some r /\ sl_sig r = s.
Definition loc_ok (w : world) (l : loc) : Prop :=
  match l with
  | LPtr s => s < length (w_sigs w)
  | LVec v => v < length (w_vecs w)
  | LIdx l => l < length (w_slots w)
  | LSlot _ | LObj _ => True
  end.
Definition on (w : world) (s : sid) (r : sigrec) : Prop := w_sigs w !! s = Some r /\ sg_alive r = true.
Definition emitting (w : world) (t : tid) (v : vid) : Prop :=
  exists st f, w_thr w !! t = Some st /\ f ∈ st /\ frame_owns v f = true.

Record Inv (w : world) (tr : list (tid * act)) : Prop := {
  V_ok : forall i l b, acc tr i l b -> loc_ok w l;
  V_ptr : forall s r i b, on w s r -> acc tr i (LPtr s) b -> sealed tr s r i;
  V_vec : forall s r v i, on w s r -> sg_vec r = Some v -> acc tr i (LVec v) true -> sealed tr s r i;
  V_idx : forall s r v l i b, on w s r -> sg_vec r = Some v -> home w s l -> acc tr i (LIdx l) b -> sealed tr s r i;
  V_rd : forall v i, acc tr i (LVec v) false ->
    (exists s r, on w s r /\ sg_vec r = Some v /\ sealed tr s r i) \/
    (exists u, emitting w u v /\ known tr u i) \/ publ tr (YCount v) i;
  V_emit : forall t v i, emitting w t v -> acc tr i (LVec v) true -> known tr t i;
  V_crit : uses -> forall t st f s v i, w_thr w !! t = Some st -> f ∈ st -> crit_vec f = Some (s, v) ->
    publ tr (YCount v) i -> known tr t i;
  V_cnt : forall k t v, tr !! k = Some (t, Rel (YCount v)) -> v < length (w_vecs w);
  V_good : good tr }.

Lemma sealed_mono tr x s r i : sealed tr s r i -> sealed (tr ++ x) s r i.
Proof. unfold sealed. destruct (sg_lock r); auto using known_mono, publ_mono. Qed.

(** One slot belongs to one signal. *)
Lemma home_unique e ps w s s' r r' v v' l : reachable e ps w -> on w s r -> on w s' r' ->
  sg_vec r = Some v -> sg_vec r' = Some v' -> home w s l -> home w s' l -> s = s'.
Proof.
  intros Hr [Hs _] [Hs' _] Hv Hv' H1 H2.
  destruct (I_list_inv _ _ _ Hr) as (_ & Hidx & Hdj & Hls). pose proof (I_sig_inv _ _ _ Hr) as (HS & _).
  assert (Hmix : forall a b ra va rb vb x, w_sigs w !! a = Some ra -> sg_vec ra = Some va -> w_sigs w !! b = Some rb -> sg_vec rb = Some vb ->
    l ∈ cur w a -> w_slots w !! l = Some x -> sl_sig x = b -> a = b).
  { intros a b ra va rb vb x Ha Hva Hb Hvb Hl Hx Hxb.
    destruct (I_fields_inv _ _ _ Hr _ _ Hx) as (_ & _ & _ & _ & Hh).
    rewrite Hxb in Hh. destruct (home_elem _ _ _ Hh) as (t0 & i0 & Hc).
    destruct (where_reach _ _ _ _ _ _ _ Hr Hc) as [[_ Ho]|(_ & s1 & Hs1 & [->|[s2 Hs2]])].
    - exfalso. eapply (Ho a). rewrite <- Hls. exact Hl.
    - apply (Hdj _ _ l); [exact Hl|]. rewrite Hls. exact Hs1.
    - exfalso. destruct (HS _ _ Hb) as (_ & _ & Hmv & _). specialize (Hmv _ Hs2). congruence. }
  destruct H1 as [H1|(x & Hx & Hxs)], H2 as [H2|(y & Hy & Hys)].
  - eauto.
  - eapply Hmix; eauto.
  - symmetry. eapply Hmix; eauto.
  - congruence.
Qed.

(** How membership changes in a step that does not move a signal. *)
Lemma home_sub e ps w t st w1 st1 s l : reachable e ps w -> w_thr w !! t = Some st -> trans e w t st w1 st1 ->
  (forall s0 st0, st <> FWrite s0 KMove :: st0) -> home w1 s l -> home w s l \/
  (length (w_slots w) = l /\ exists v i st0, st = FBody s v (KAdd i) :: st0).
Proof.
  intros Hr Ht Htr Hm Hh. unfold home in *.
  destruct (trans_cur _ _ _ _ _ _ _ Hr Ht Htr) as
    [Hc _ Hs _|s0 st0 E _ _ _ _|s0 v i st0 E Ho _ Hc Hs|s0 v i l0 x Ho Hi _ Hc (y & _ & Hs)].
  - rewrite Hc in Hh. left. destruct Hh as [Hh|(r' & Hl & Hq)]; [auto|]. right.
    destruct (Hs _ _ Hl) as (r & Hl' & _ & E). exists r. split; [exact Hl'|congruence].
  - destruct (Hm _ _ E).
  - rewrite Hc, Hs in Hh. destruct Hh as [Hh|(r' & Hl & Hq)].
    + case_decide as E'; [subst s0|auto]. apply elem_of_app in Hh as [Hh|Hh]; [auto|].
      apply elem_of_list_singleton in Hh. right. eauto 10.
    + apply snoc_lookup in Hl as [[Hl _]|[Hl1 Hl2]]; [left; right; eauto|]. right. split; [auto|].
      rewrite Hl2 in Hq. cbn in Hq. subst s0. eauto.
  - rewrite Hc, Hs in Hh. left. destruct Hh as [Hh|(r' & Hl & Hq)].
    + case_decide as E'; [subst s0|auto]. left.
      destruct (I_list_inv _ _ _ Hr) as (Hnd & _). destruct (cur_vec w s l0) as (v' & xs & Hv' & E).
      { eapply elem_of_list_lookup_2; eauto. }
      rewrite E in *. apply (swap_pop_elem _ _ _ l (proj1 (Hnd _ _ Hv')) Hi) in Hh. tauto.
    + rewrite alter_lookup in Hl. case_decide as E'; [subst y|right; eauto].
      destruct (w_slots w !! l) as [r|] eqn:E; cbn in Hl; [|discriminate]. simplify_eq. right. eauto.
Qed.

Definition may (w w' : world) (t : tid) (st : list frame) (a : act) : Prop :=
  match a with
  | Rd (LPtr s) | Wr (LPtr s) => exists r, on w s r /\ sg_lock r = Some t
  | Rd (LVec v) => (exists s r, on w s r /\ sg_lock r = Some t /\ sg_vec r = Some v) \/ emitting w t v
  | Wr (LVec v) => (exists s r, on w s r /\ sg_lock r = Some t /\ sg_vec r = Some v) /\
      (exists g s, g ∈ st /\ crit_vec g = Some (s, v))
  | Rd (LIdx l) | Wr (LIdx l) => exists s r v, on w s r /\ sg_lock r = Some t /\ sg_vec r = Some v /\
      (home w s l /\ l < length (w_slots w) \/
       l = length (w_slots w) /\ l < length (w_slots w') /\ forall s', home w' s' l -> s' = s)
  | _ => True
  end.

Lemma not_emitting e ps w t st f s v u : reachable e ps w -> w_thr w !! t = Some st -> f ∈ st -> crit_vec f = Some (s, v) ->
  ~ emitting w u v.
Proof.
  intros Hr Ht Hf Hc (st' & g & Hu & Hg & Ho). pose proof (I_crit_inv _ _ _ Hr _ _ Ht) as HF.
  rewrite Forall_forall in HF. specialize (HF _ Hf). unfold fr_crit in HF. rewrite Hc in HF. destruct HF as [_ HF].
  assert (Hz : swt (emits v) st' = 0) by (eapply wt_zero; eauto).
  assert (emits v g = 0) by (eapply swt_zero; eauto). unfold emits in *. rewrite Ho in *. discriminate.
Qed.

Lemma inv_quiet e ps w w' tr t st st' as_ :
  reachable e ps w -> Inv w tr -> w_thr w !! t = Some st -> w_thr w' = <[t := st']> (w_thr w) ->
  w_sigs w' = w_sigs w -> length (w_vecs w) <= length (w_vecs w') -> length (w_slots w) <= length (w_slots w') ->
  (forall s l, home w' s l -> home w s l \/ l = length (w_slots w)) ->
  (forall v, (exists f, f ∈ st' /\ frame_owns v f = true) <-> (exists f, f ∈ st /\ frame_owns v f = true)) ->
  (forall v a, a ∈ as_ -> a <> Rel (YCount v)) ->
  (uses -> forall f s v, f ∈ st' -> crit_vec f = Some (s, v) -> Use v ∈ as_ \/ exists g, g ∈ st /\ crit_vec g = Some (s, v)) ->
  (forall a, a ∈ as_ -> may w w' t st a) ->
  Inv w' (tr ++ blk t as_).
Proof.
  intros Hr HI Ht Hthr Hsg Hlv Hls Hhm Hfr Hnr Hcr Hmay.
  pose proof (I_bound_inv _ _ _ Hr) as (Hb1 & Hb2 & Hb3 & Hb4).
  assert (Hon : forall s r, on w' s r <-> on w s r) by (intros; unfold on; rewrite Hsg; reflexivity).
  assert (Hem : forall u v, emitting w' u v <-> emitting w u v).
  { intros u v. unfold emitting. rewrite Hthr. split.
    - intros (x & f & Hx & Hf & Ho). destruct (thr_upd _ _ _ _ _ _ Ht Hx) as [[-> ->]|[Hn Hx']]; [|eauto 10].
      destruct (proj1 (Hfr v)) as (g & Hg & Ho'); [eauto|]. eauto 10.
    - intros (x & f & Hx & Hf & Ho). destruct (decide (u = t)) as [->|Hn].
      + rewrite Ht in Hx. simplify_eq. destruct (proj2 (Hfr v)) as (g & Hg & Ho'); [eauto|].
        exists st', g. rewrite list_lookup_insert by (eapply lookup_lt_Some; eauto). auto.
      + exists x, f. rewrite list_lookup_insert_ne by auto. auto. }
  assert (Hself : forall s r i, on w s r -> sg_lock r = Some t -> known (tr ++ blk t as_) t i -> sealed (tr ++ blk t as_) s r i).
  { intros s r i _ Hl Hk. unfold sealed. rewrite Hl. exact Hk. }
  assert (Hknow : forall s r i, on w s r -> sg_lock r = Some t -> sealed tr s r i -> known tr t i).
  { intros s r i _ Hl Hk. unfold sealed in Hk. rewrite Hl in Hk. exact Hk. }
  assert (Hrole : forall l b, (if b : bool then Wr l else Rd l) ∈ as_ -> may w w' t st (if b then Wr l else Rd l)) by auto.
  split.
  - intros i l b Hi. apply acc_app in Hi as [Hi|[Hin _]].
    + apply (V_ok _ _ HI) in Hi. destruct l; cbn in *; rewrite ?Hsg; lia.
    + apply Hrole in Hin. destruct l as [s|v|l|l|o]; cbn; [..|exact I|exact I].
      * assert (exists r, on w s r /\ sg_lock r = Some t) as (r & [Hs _] & _) by (destruct b; exact Hin).
        rewrite Hsg. eapply lookup_lt_Some; eauto.
      * assert ((exists s r, on w s r /\ sg_lock r = Some t /\ sg_vec r = Some v) \/ emitting w t v) as [(s & r & [Hs _] & _ & Hv)|(x & f & Hx & Hf & Ho)].
        { destruct b; [left; apply Hin|exact Hin]. }
        -- pose proof (Hb1 _ _ _ Hs Hv). lia.
        -- pose proof (Hb2 _ _ Hx) as HF. rewrite Forall_forall in HF. specialize (HF _ Hf).
           destruct f; cbn in Ho; try discriminate. apply bool_decide_eq_true in Ho as ->. unfold fr_bound in HF. cbn in HF. lia.
      * assert (exists s r v, on w s r /\ sg_lock r = Some t /\ sg_vec r = Some v /\
          (home w s l /\ l < length (w_slots w) \/
          l = length (w_slots w) /\ l < length (w_slots w') /\ forall s', home w' s' l -> s' = s)) as (s & r & v & _ & _ & _ & [[_ H]|[_ [H _]]])
          by (destruct b; exact Hin); lia.
  - intros s r i b Ho Hi. apply Hon in Ho. apply acc_app in Hi as [Hi|[Hin Hk]].
    + apply sealed_mono. eapply V_ptr; eauto.
    + apply Hrole in Hin. assert (exists r, on w s r /\ sg_lock r = Some t) as (r' & [Hs ?] & Hl) by (destruct b; exact Hin).
      destruct Ho as [Hs' ?]. simplify_eq. apply Hself; auto. split; auto.
  - intros s r v i Ho Hv Hi. apply Hon in Ho. apply acc_app in Hi as [Hi|[Hin Hk]].
    + apply sealed_mono. eapply V_vec; eauto.
    + apply (Hrole (LVec v) true) in Hin. destruct Hin as ((s' & r' & [Hs' ?] & Hl & Hv') & _). destruct Ho as [Hs ?].
      assert (s' = s) as -> by eauto. simplify_eq. apply Hself; auto. split; auto.
  - intros s r v l i b Ho Hv Hh Hi. apply Hon in Ho. apply acc_app in Hi as [Hi|[Hin Hk]].
    + apply sealed_mono. destruct (Hhm _ _ Hh) as [Hh'|Hge]; [eapply V_idx; eauto|].
      apply (V_ok _ _ HI) in Hi. cbn in Hi. lia.
    + apply Hrole in Hin. assert (exists s r v, on w s r /\ sg_lock r = Some t /\ sg_vec r = Some v /\
          (home w s l /\ l < length (w_slots w) \/
          l = length (w_slots w) /\ l < length (w_slots w') /\ forall s', home w' s' l -> s' = s)) as (s1 & r1 & v1 & Ho1 & Hl1 & Hv1 & HH)
          by (destruct b; exact Hin).
      assert (s1 = s) as ->.
      { destruct HH as [[Hh1 Hlt]|(_ & _ & Hu)]; [|symmetry; auto].
        destruct (Hhm _ _ Hh) as [Hh'|Hge]; [|lia]. eapply home_unique; eauto. }
      destruct Ho as [Hs Ha], Ho1 as [Hs1 Ha1]. simplify_eq. apply Hself; auto. split; auto.
  - intros v i Hi. apply acc_app in Hi as [Hi|[Hin Hk]].
    + destruct (V_rd _ _ HI _ _ Hi) as [(s & r & Ho & Hv & Hg)|[(u & He & Hk)|Hp]].
      * left. exists s, r. rewrite Hon. auto using sealed_mono.
      * right. left. exists u. rewrite Hem. auto using known_mono.
      * right. right. apply publ_mono. auto.
    + apply (Hrole (LVec v) false) in Hin. destruct Hin as [(s & r & Ho & Hl & Hv)|He].
      * left. exists s, r. rewrite Hon. auto.
      * right. left. exists t. rewrite Hem. auto.
  - intros u v i He Hi. apply Hem in He. apply acc_app in Hi as [Hi|[Hin Hk]].
    + apply known_mono. eapply V_emit; eauto.
    + apply (Hrole (LVec v) true) in Hin. destruct Hin as (_ & g & s & Hg & Hc). exfalso. eapply not_emitting; eauto.
  - intros U u x f s v i Hx Hf Hc Hp. apply publ_app in Hp; [|auto]. rewrite Hthr in Hx.
    destruct (thr_upd _ _ _ _ _ _ Ht Hx) as [[-> ->]|[Hn Hx']].
    + destruct (Hcr U _ _ _ Hf Hc) as [Hin|(g & Hg & Hc')].
      * eapply publ_known_blk; eauto.
      * apply known_mono. eapply (V_crit _ _ HI U); eauto.
    + apply known_mono. eapply (V_crit _ _ HI U); eauto.
  - intros k u v Hk. apply lookup_app_Some in Hk as [Hk|[_ Hk]].
    + pose proof (V_cnt _ _ HI _ _ _ Hk). lia.
    + rewrite list_lookup_fmap in Hk. destruct (as_ !! _) as [a|] eqn:E; cbn in Hk; [|discriminate]. simplify_eq.
      exfalso. eapply Hnr; [eapply elem_of_list_lookup_2; eauto|reflexivity].
  - apply good_blk; [apply (V_good _ _ HI)|]. intros l b Hin i a' Hi Hc. apply Hrole in Hin. destruct l as [s|v|l|l|o]; [..|destruct Hc as [_ []]|destruct Hc as [_ []]].
    + assert (exists r, on w s r /\ sg_lock r = Some t) as (r & Ho & Hl) by (destruct b; exact Hin).
      eapply Hknow; eauto. eapply V_ptr; eauto.
    + destruct b.
      * destruct Hin as ((s & r & Ho & Hl & Hv) & g & s' & Hg & Hcg). destruct a'.
        -- eapply Hknow; eauto. eapply V_vec; eauto.
        -- destruct Hc as [_ [|U]]; [discriminate|]. destruct (V_rd _ _ HI _ _ Hi) as [(s1 & r1 & Ho1 & Hv1 & Hg1)|[(u & He & Hk)|Hp]].
           ++ destruct Ho as [Hs Ha], Ho1 as [Hs1 Ha1]. assert (s1 = s) as -> by eauto. simplify_eq. eapply Hknow; eauto. split; auto.
           ++ exfalso. eapply not_emitting; eauto.
           ++ eapply (V_crit _ _ HI U); eauto.
      * destruct Hc as [[->|] _]; [|discriminate]. destruct Hin as [(s & r & Ho & Hl & Hv)|He].
        -- eapply Hknow; eauto. eapply V_vec; eauto.
        -- eapply V_emit; eauto.
    + assert (exists s r v, on w s r /\ sg_lock r = Some t /\ sg_vec r = Some v /\
          (home w s l /\ l < length (w_slots w) \/
          l = length (w_slots w) /\ l < length (w_slots w') /\ forall s', home w' s' l -> s' = s)) as (s1 & r1 & v1 & Ho1 & Hl1 & Hv1 & HH)
          by (destruct b; exact Hin).
      destruct HH as [[Hh _]|[-> _]].
      * eapply Hknow; eauto. eapply V_idx; eauto.
      * apply (V_ok _ _ HI) in Hi. cbn in Hi. lia.
Qed.

(** A synchronisation together with a change of the world. *)
Lemma inv_sync w w' tr t st st' a :
  Inv w tr -> w_thr w !! t = Some st -> w_thr w' = <[t := st']> (w_thr w) ->
  length (w_sigs w) <= length (w_sigs w') -> length (w_vecs w) <= length (w_vecs w') -> length (w_slots w) <= length (w_slots w') ->
  act_loc a = None ->
  (forall v, a = Rel (YCount v) -> v < length (w_vecs w') /\ forall u x f s, w_thr w' !! u = Some x -> f ∈ x -> crit_vec f <> Some (s, v)) ->
  (forall s r', on w' s r' -> exists r, on w s r /\ sg_vec r = sg_vec r' /\
      forall i, sealed tr s r i -> sealed (tr ++ [(t, a)]) s r' i) ->
  (forall s r, on w s r -> exists r', on w' s r' /\ sg_vec r' = sg_vec r /\
      forall i, sealed tr s r i -> sealed (tr ++ [(t, a)]) s r' i) ->
  (forall s l, home w' s l -> home w s l) ->
  (forall v, (exists f, f ∈ st' /\ frame_owns v f = true) -> (exists f, f ∈ st /\ frame_owns v f = true) \/
      forall i, acc tr i (LVec v) true -> known tr t i) ->
  (forall v, (exists f, f ∈ st /\ frame_owns v f = true) -> (exists f, f ∈ st' /\ frame_owns v f = true) \/ a = Rel (YCount v)) ->
  (forall f s v, f ∈ st' -> crit_vec f = Some (s, v) -> exists g, g ∈ st /\ crit_vec g = Some (s, v)) ->
  Inv w' (tr ++ [(t, a)]).
Proof.
  intros HI Ht Hthr L1 L2 L3 Hal Hrel Hs1 Hs2 Hh He1 He2 Hcr.
  assert (Hacc : forall i l b, acc (tr ++ [(t, a)]) i l b -> acc tr i l b).
  { intros i l b Hi. change [(t, a)] with (blk t [a]) in Hi. apply acc_app in Hi as [Hi|[Hin _]]; [exact Hi|].
    apply elem_of_list_singleton in Hin. destruct b; rewrite <- Hin in Hal; discriminate. }
  assert (Hpub : forall o i, a <> Rel o -> publ (tr ++ [(t, a)]) o i -> publ tr o i).
  { intros o i Hn Hp. change [(t, a)] with (blk t [a]) in Hp. apply publ_app in Hp; [exact Hp|].
    intros x Hx ->. apply elem_of_list_singleton in Hx. congruence. }
  split.
  - intros i l b Hi. apply Hacc, (V_ok _ _ HI) in Hi. destruct l; cbn in *; lia.
  - intros s r' i b Ho Hi. destruct (Hs1 _ _ Ho) as (r & Ho' & _ & Hi'). apply Hi'. eapply V_ptr; eauto.
  - intros s r' v i Ho Hv Hi. destruct (Hs1 _ _ Ho) as (r & Ho' & Hv' & Hi'). apply Hi'. eapply V_vec; eauto. congruence.
  - intros s r' v l i b Ho Hv Hl Hi. destruct (Hs1 _ _ Ho) as (r & Ho' & Hv' & Hi'). apply Hi'. rewrite <- Hv' in Hv. eapply V_idx; eauto.
  - intros v i Hi. destruct (V_rd _ _ HI _ _ (Hacc _ _ _ Hi)) as [(s & r & Ho & Hv & Hg)|[(u & (x & f & Hx & Hf & Hfo) & Hk)|Hp]].
    + left. destruct (Hs2 _ _ Ho) as (r' & Ho' & Hv' & Hi'). exists s, r'. split; [auto|]. split; [congruence|auto].
    + destruct (decide (u = t)) as [->|Hn].
      * rewrite Ht in Hx. simplify_eq. destruct (He2 v) as [(g & Hg & Hgo)|Hr]; [eauto| |].
        -- right. left. exists t. split; [|apply known_mono; auto]. exists st', g.
           rewrite Hthr, list_lookup_insert by (eapply lookup_lt_Some; eauto). auto.
        -- subst a. right. right. apply known_publ. auto.
      * right. left. exists u. split; [|apply known_mono; auto]. exists x, f. rewrite Hthr, list_lookup_insert_ne by auto. auto.
    + right. right. apply publ_mono. auto.
  - intros u v i (x & f & Hx & Hf & Hfo) Hi. apply Hacc in Hi. apply known_mono. rewrite Hthr in Hx.
    destruct (thr_upd _ _ _ _ _ _ Ht Hx) as [[-> ->]|[Hn Hx']].
    + destruct (He1 v) as [(g & Hg & Hgo)|Hk]; [eauto| |auto]. eapply V_emit; eauto. exists st, g. auto.
    + eapply V_emit; eauto. exists x, f. auto.
  - intros U u x f s v i Hx Hf Hc Hp. assert (Hn : a <> Rel (YCount v)).
    { intros E. destruct (Hrel _ E) as [_ Hno]. eapply Hno; eauto. }
    apply Hpub in Hp; [|exact Hn]. apply known_mono. rewrite Hthr in Hx.
    destruct (thr_upd _ _ _ _ _ _ Ht Hx) as [[-> ->]|[_ Hx']].
    + destruct (Hcr _ _ _ Hf Hc) as (g & Hg & Hc'). eapply (V_crit _ _ HI U); eauto.
    + eapply (V_crit _ _ HI U); eauto.
  - intros k u v Hk. apply lookup_app_Some in Hk as [Hk|[_ Hk]].
    + pose proof (V_cnt _ _ HI _ _ _ Hk). lia.
    + apply list_lookup_singleton_Some in Hk as [_ Hk]. injection Hk as _ Hk. apply (proj1 (Hrel _ Hk)).
  - apply good_snoc; [apply (V_good _ _ HI)|]. intros l b E. rewrite E in Hal. destruct b; discriminate.
Qed.

(** The last owner of a vector destroys it. *)
Lemma inv_kill w tr t v : Inv w tr -> v < length (w_vecs w) ->
  (forall s r, on w s r -> sg_vec r <> Some v) -> (forall u, ~ emitting w u v) ->
  (forall i b, acc tr i (LVec v) b -> known tr t i) -> Inv w (tr ++ [(t, Wr (LVec v))]).
Proof.
  intros HI Hv Hno Hne Hk. change [(t, Wr (LVec v))] with (blk t [Wr (LVec v)]).
  assert (Hacc : forall i l b, acc (tr ++ blk t [Wr (LVec v)]) i l b -> acc tr i l b \/ l = LVec v /\ b = true).
  { intros i l b Hi. apply acc_app in Hi as [Hi|[Hin _]]; [auto|]. apply elem_of_list_singleton in Hin. destruct b; simplify_eq. auto. }
  split.
  - intros i l b Hi. apply Hacc in Hi as [Hi|[-> _]]; [eapply V_ok; eauto|exact Hv].
  - intros s r i b Ho Hi. apply Hacc in Hi as [Hi|[? _]]; [|discriminate]. apply sealed_mono. eapply V_ptr; eauto.
  - intros s r v' i Ho Hv' Hi. apply Hacc in Hi as [Hi|[? _]]; [|simplify_eq; destruct (Hno _ _ Ho Hv')]. apply sealed_mono. eapply V_vec; eauto.
  - intros s r v' l i b Ho Hv' Hh Hi. apply Hacc in Hi as [Hi|[? _]]; [|discriminate]. apply sealed_mono. eapply V_idx; eauto.
  - intros v' i Hi. apply Hacc in Hi as [Hi|[_ ?]]; [|discriminate].
    destruct (V_rd _ _ HI _ _ Hi) as [(s & r & Ho & Hvv & Hg)|[(u & He & Hku)|Hp]].
    + left. exists s, r. auto using sealed_mono.
    + right. left. exists u. auto using known_mono.
    + right. right. apply publ_mono. auto.
  - intros u v' i He Hi. apply Hacc in Hi as [Hi|[? _]]; [|simplify_eq; destruct (Hne _ He)]. apply known_mono. eapply V_emit; eauto.
  - intros U u x f s v' i Hx Hf Hc Hp. apply publ_app in Hp; [|intros a Ha ->; apply elem_of_list_singleton in Ha; discriminate].
    apply known_mono. eapply (V_crit _ _ HI U); eauto.
  - intros k u v' Hkk. apply lookup_app_Some in Hkk as [Hkk|[_ Hkk]]; [eapply V_cnt; eauto|].
    apply list_lookup_singleton_Some in Hkk as [_ Hkk]. discriminate.
  - apply good_blk; [apply (V_good _ _ HI)|]. intros l b Hin i a' Hi _. apply elem_of_list_singleton in Hin.
    destruct b; simplify_eq. eauto.
Qed.

(** A new signal. *)
Lemma inv_new e ps w w' tr t st st' c : reachable e ps w -> reachable e ps w' -> Inv w tr ->
  w_thr w !! t = Some st -> w_thr w' = <[t := st']> (w_thr w) ->
  w_vecs w' = w_vecs w ++ [[]] -> w_slots w' = w_slots w ->
  w_sigs w' = w_sigs w ++ [SigRec true None (Some (length (w_vecs w))) false c] ->
  (forall v, (exists f, f ∈ st' /\ frame_owns v f = true) -> (exists f, f ∈ st /\ frame_owns v f = true)) ->
  (forall v, (exists f, f ∈ st /\ frame_owns v f = true) -> (exists f, f ∈ st' /\ frame_owns v f = true)) ->
  (forall f s v, f ∈ st' -> crit_vec f = Some (s, v) -> exists g, g ∈ st /\ crit_vec g = Some (s, v)) ->
  Inv w' (tr ++ blk t [Wr (LVec (length (w_vecs w))); Wr (LPtr (length (w_sigs w))); Rel (YLock (length (w_sigs w)))]).
Proof.
  intros Hr Hr' HI Ht Hthr Hvs Hsl Hsg He1 He2 Hcr.
  set (v0 := length (w_vecs w)) in *. set (s0 := length (w_sigs w)) in *.
  pose proof (I_bound_inv _ _ _ Hr) as (Hb1 & Hb2 & Hb3 & Hb4).
  change [Wr (LVec v0); Wr (LPtr s0); Rel (YLock s0)] with ([Wr (LVec v0); Wr (LPtr s0)] ++ [Rel (YLock s0)]).
  rewrite blk_app. set (tr1 := tr ++ blk t [Wr (LVec v0); Wr (LPtr s0)]).
  assert (Hacc : forall i l b, acc (tr1 ++ blk t [Rel (YLock s0)]) i l b ->
    acc tr i l b \/ ((l = LVec v0 \/ l = LPtr s0) /\ b = true /\ publ (tr1 ++ blk t [Rel (YLock s0)]) (YLock s0) i)).
  { intros i l b Hi. apply acc_app in Hi as [Hi|[Hin _]]; [|apply elem_of_list_singleton in Hin; destruct b; discriminate].
    apply acc_app in Hi as [Hi|[Hin Hk]]; [auto|right]. split; [|split; [|apply known_publ; exact Hk]];
    rewrite !elem_of_cons, elem_of_nil in Hin; destruct b; naive_solver. }
  assert (Hon : forall s r, on w' s r -> (on w s r /\ s < s0) \/ (s = s0 /\ r = SigRec true None (Some v0) false c)).
  { intros s r [Hs Ha]. rewrite Hsg in Hs. apply snoc_lookup in Hs as [[Hs Hlt]|[-> ->]]; [left|right; auto]. split; [split; auto|auto]. }
  assert (Hon' : forall s r, on w s r -> on w' s r).
  { intros s r [Hs Ha]. split; [|auto]. rewrite Hsg. apply lookup_app_l_Some. auto. }
  assert (Hmono : forall s r i, sealed tr s r i -> sealed (tr1 ++ blk t [Rel (YLock s0)]) s r i).
  { intros. unfold tr1. apply sealed_mono, sealed_mono. auto. }
  assert (Hkm : forall u i, known tr u i -> known (tr1 ++ blk t [Rel (YLock s0)]) u i).
  { intros. unfold tr1. apply known_mono, known_mono. auto. }
  assert (Hcur : forall s, s < s0 -> cur w' s = cur w s).
  { intros s Hlt. unfold cur. rewrite Hsg, lookup_app_l by auto. destruct (w_sigs w !! s) as [r|] eqn:E; [|reflexivity].
    destruct (sg_vec r) as [v|] eqn:Ev; [|reflexivity]. eapply vec_of_snoc; eauto. }
  assert (Hem : forall u v, emitting w' u v <-> emitting w u v).
  { intros u v. unfold emitting. rewrite Hthr. split.
    - intros (x & f & Hx & Hf & Ho). destruct (thr_upd _ _ _ _ _ _ Ht Hx) as [[-> ->]|[Hn Hx']]; [|eauto 10].
      destruct (He1 v) as (g & Hg & Ho'); [eauto|]. eauto 10.
    - intros (x & f & Hx & Hf & Ho). destruct (decide (u = t)) as [->|Hn].
      + rewrite Ht in Hx. simplify_eq. destruct (He2 v) as (g & Hg & Ho'); [eauto|].
        exists st', g. rewrite list_lookup_insert by (eapply lookup_lt_Some; eauto). auto.
      + exists x, f. rewrite list_lookup_insert_ne by auto. auto. }
  assert (Hev : forall u v, emitting w u v -> v < v0).
  { intros u v (x & f & Hx & Hf & Ho). pose proof (Hb2 _ _ Hx) as HF. rewrite Forall_forall in HF. specialize (HF _ Hf).
    destruct f; cbn in Ho; try discriminate. apply bool_decide_eq_true in Ho as ->. exact HF. }
  split.
  - intros i l b Hi. apply Hacc in Hi as [Hi|(Hl & _)].
    + apply (V_ok _ _ HI) in Hi. destruct l; cbn in *; rewrite ?Hsg, ?Hvs, ?Hsl, ?app_length; lia.
    + destruct Hl as [->| ->]; cbn; rewrite ?Hsg, ?Hvs, app_length; cbn; unfold v0, s0; lia.
  - intros s r i b Ho Hi. apply Hon in Ho as [[Ho Hlt]|[-> ->]]; apply Hacc in Hi as [Hi|([Hl|Hl] & _ & Hp)]; try discriminate.
    + apply Hmono. eapply V_ptr; eauto.
    + injection Hl as ->. lia.
    + apply (V_ok _ _ HI) in Hi. cbn in Hi. unfold s0 in *. lia.
    + exact Hp.
  - intros s r v i Ho Hv Hi. apply Hon in Ho as [[Ho Hlt]|[-> ->]]; apply Hacc in Hi as [Hi|([Hl|Hl] & _ & Hp)]; try discriminate.
    + apply Hmono. eapply V_vec; eauto.
    + injection Hl as ->. destruct Ho as [Hs _]. pose proof (Hb1 _ _ _ Hs Hv). unfold v0 in *. lia.
    + apply (V_ok _ _ HI) in Hi. cbn in Hi, Hv. injection Hv as <-. unfold v0 in *. lia.
    + exact Hp.
  - intros s r v l i b Ho Hv Hh Hi. apply Hacc in Hi as [Hi|([Hl|Hl] & _ & Hp)]; try discriminate.
    apply Hon in Ho as [[Ho Hlt]|[-> ->]].
    + apply Hmono. eapply V_idx; eauto. destruct Hh as [Hh|Hh]; [left; rewrite <- Hcur; auto|right; rewrite <- Hsl; auto].
    + exfalso. destruct Hh as [Hh|(x & Hx & Hxs)].
      * unfold cur in Hh. rewrite Hsg in Hh. unfold s0 in Hh. rewrite lookup_app_r, Nat.sub_diag in Hh by lia. cbn in Hh.
        unfold v0 in Hh. rewrite (vec_of_snoc_new w w' []) in Hh by auto. inversion Hh.
      * rewrite Hsl in Hx. destruct (I_fields_inv _ _ _ Hr _ _ Hx) as (_ & _ & _ & _ & Hhm).
        destruct (home_elem _ _ _ Hhm) as (t1 & i1 & Hc). pose proof (conn_sig_bound _ _ _ Hr _ _ _ _ Hc). unfold s0 in *. lia.
  - intros v i Hi. apply Hacc in Hi as [Hi|(_ & ? & _)]; [|discriminate].
    destruct (V_rd _ _ HI _ _ Hi) as [(s & r & Ho & Hvv & Hg)|[(u & He & Hku)|Hp]].
    + left. exists s, r. auto.
    + right. left. exists u. rewrite Hem. auto.
    + right. right. unfold tr1. apply publ_mono, publ_mono. auto.
  - intros u v i He Hi. apply Hem in He. apply Hacc in Hi as [Hi|([Hl|Hl] & _ & Hp)]; try discriminate.
    + apply Hkm. eapply V_emit; eauto.
    + injection Hl as ->. pose proof (Hev _ _ He). lia.
  - intros U u x f s v i Hx Hf Hc Hp. unfold tr1 in Hp. apply publ_app in Hp; [|intros a Ha ->; apply elem_of_list_singleton in Ha; discriminate].
    apply publ_app in Hp; [|intros a Ha ->; rewrite !elem_of_cons, elem_of_nil in Ha; naive_solver].
    apply Hkm. rewrite Hthr in Hx. destruct (thr_upd _ _ _ _ _ _ Ht Hx) as [[-> ->]|[_ Hx']].
    + destruct (Hcr _ _ _ Hf Hc) as (g & Hg & Hc'). eapply (V_crit _ _ HI U); eauto.
    + eapply (V_crit _ _ HI U); eauto.
  - intros k u v' Hkk. rewrite Hvs, app_length. unfold tr1 in Hkk. rewrite <- app_assoc in Hkk.
    apply lookup_app_Some in Hkk as [Hkk|[_ Hkk]]; [pose proof (V_cnt _ _ HI _ _ _ Hkk); lia|].
    apply elem_of_list_lookup_2 in Hkk. cbn in Hkk. rewrite !elem_of_cons, elem_of_nil in Hkk. naive_solver.
  - unfold tr1. rewrite <- blk_app. apply good_blk; [apply (V_good _ _ HI)|].
    intros l b Hin i a' Hi _. exfalso. apply (V_ok _ _ HI) in Hi. cbn in Hin. rewrite !elem_of_cons, elem_of_nil in Hin.
    destruct b; destruct Hin as [?|[?|[?|[]]]]; simplify_eq; cbn in Hi; unfold v0, s0 in *; lia.
Qed.

Lemma emitting_iff w w' t st st' : w_thr w !! t = Some st -> w_thr w' = <[t := st']> (w_thr w) ->
  (forall v, (exists f, f ∈ st' /\ frame_owns v f = true) <-> (exists f, f ∈ st /\ frame_owns v f = true)) ->
  forall u v, emitting w' u v <-> emitting w u v.
Proof.
  intros Ht Hthr He u v. unfold emitting. rewrite Hthr. split.
  - intros (x & f & Hx & Hf & Ho). destruct (thr_upd _ _ _ _ _ _ Ht Hx) as [[-> ->]|[Hn Hx']]; [|eauto 10].
    destruct (proj1 (He v)) as (g & Hg & Ho'); [eauto|]. eauto 10.
  - intros (x & f & Hx & Hf & Ho). destruct (decide (u = t)) as [->|Hn].
    + rewrite Ht in Hx. simplify_eq. destruct (proj2 (He v)) as (g & Hg & Ho'); [eauto|].
      exists st', g. rewrite list_lookup_insert by (eapply lookup_lt_Some; eauto). auto.
    + exists x, f. rewrite list_lookup_insert_ne by auto. auto.
Qed.
Lemma emitting_bound e ps w u v : reachable e ps w -> emitting w u v -> v < length (w_vecs w).
Proof.
  intros Hr (x & f & Hx & Hf & Ho). pose proof (I_bound_inv _ _ _ Hr) as (_ & Hb2 & _).
  pose proof (Hb2 _ _ Hx) as HF. rewrite Forall_forall in HF. specialize (HF _ Hf).
  destruct f; cbn in Ho; try discriminate. apply bool_decide_eq_true in Ho as ->. exact HF.
Qed.
Lemma home_bound e ps w s l r : reachable e ps w -> w_slots w !! l = Some r -> sl_sig r = s -> s < length (w_sigs w).
Proof.
  intros Hr Hx <-. destruct (I_fields_inv _ _ _ Hr _ _ Hx) as (_ & _ & _ & _ & Hhm).
  destruct (home_elem _ _ _ Hhm) as (t1 & i1 & Hc). eapply conn_sig_bound; eauto.
Qed.

(** A signal is moved. *)
Lemma inv_move e ps w w' tr t st st' s r : reachable e ps w -> Inv w tr ->
  w_thr w !! t = Some st -> w_thr w' = <[t := st']> (w_thr w) ->
  on w s r -> sg_lock r = Some t -> w_vecs w' = w_vecs w -> w_slots w' = w_slots w ->
  w_sigs w' = alter (sg_set_vec None) s (w_sigs w) ++ [SigRec true None (sg_vec r) (sg_blocked r) (sg_comb r)] ->
  (forall v, (exists f, f ∈ st' /\ frame_owns v f = true) <-> (exists f, f ∈ st /\ frame_owns v f = true)) ->
  (forall f s v, f ∈ st' -> crit_vec f = Some (s, v) -> exists g, g ∈ st /\ crit_vec g = Some (s, v)) ->
  Inv w' (tr ++ blk t [Wr (LPtr s); Wr (LPtr (length (w_sigs w))); Rel (YLock (length (w_sigs w)))]).
Proof.
  intros Hr HI Ht Hthr Ho Hl Hvs Hsl Hsg Hef Hcr.
  set (s2 := length (w_sigs w)) in *.
  pose proof (I_bound_inv _ _ _ Hr) as (Hb1 & Hb2 & Hb3 & Hb4).
  assert (Hlt : s < s2) by (destruct Ho; eapply lookup_lt_Some; eauto).
  change [Wr (LPtr s); Wr (LPtr s2); Rel (YLock s2)] with ([Wr (LPtr s); Wr (LPtr s2)] ++ [Rel (YLock s2)]).
  rewrite blk_app. set (tr1 := tr ++ blk t [Wr (LPtr s); Wr (LPtr s2)]). set (tr2 := tr1 ++ blk t [Rel (YLock s2)]).
  assert (Hacc : forall i l b, acc tr2 i l b ->
    acc tr i l b \/ ((l = LPtr s \/ l = LPtr s2) /\ b = true /\ known tr2 t i /\ publ tr2 (YLock s2) i)).
  { intros i l b Hi. apply acc_app in Hi as [Hi|[Hin _]]; [|apply elem_of_list_singleton in Hin; destruct b; discriminate].
    apply acc_app in Hi as [Hi|[Hin Hk]]; [auto|right]. split; [|split; [|split; [apply known_mono; exact Hk|apply known_publ; exact Hk]]];
    rewrite !elem_of_cons, elem_of_nil in Hin; destruct b; naive_solver. }
  assert (Hon : forall s' r', on w' s' r' -> (on w s' r' /\ s' <> s /\ s' < s2) \/ (s' = s /\ r' = sg_set_vec None r) \/
     (s' = s2 /\ r' = SigRec true None (sg_vec r) (sg_blocked r) (sg_comb r))).
  { intros s' r' [Hs Ha]. rewrite Hsg in Hs. apply snoc_lookup in Hs as [[Hs Hlt']|[-> ->]]; [|right; right; rewrite alter_length; auto].
    rewrite alter_length in Hlt'. rewrite alter_lookup in Hs. case_decide as E; [subst s'|left; repeat split; auto].
    destruct Ho as [Hs' _]. rewrite Hs' in Hs. cbn in Hs. simplify_eq. auto. }
  assert (Hon' : forall s' r', on w s' r' -> s' <> s -> on w' s' r').
  { intros s' r' [Hs Ha] Hn. split; [|auto]. rewrite Hsg. apply lookup_app_l_Some. rewrite alter_lookup, decide_False by auto. auto. }
  assert (Hon2 : on w' s2 (SigRec true None (sg_vec r) (sg_blocked r) (sg_comb r))).
  { split; [|reflexivity]. rewrite Hsg, lookup_app_r by (rewrite alter_length; auto). rewrite alter_length, Nat.sub_diag. reflexivity. }
  assert (Hmono : forall s r i, sealed tr s r i -> sealed tr2 s r i).
  { intros. unfold tr2, tr1. apply sealed_mono, sealed_mono. auto. }
  assert (Hkm : forall u i, known tr u i -> known tr2 u i).
  { intros. unfold tr2, tr1. apply known_mono, known_mono. auto. }
  assert (Hkn : forall i, sealed tr s r i -> known tr t i) by (intros i; unfold sealed; rewrite Hl; auto).
  assert (Hpb : forall i, known tr t i -> publ tr2 (YLock s2) i).
  { intros i Hk. apply known_publ. unfold tr1. apply known_mono. auto. }
  assert (Hcur : forall s', s' <> s -> s' < s2 -> cur w' s' = cur w s').
  { intros s' Hn Hlt'. unfold cur. rewrite Hsg, lookup_app_l by (rewrite alter_length; auto).
    rewrite alter_lookup, decide_False by auto. destruct (w_sigs w !! s') as [r'|]; [|reflexivity].
    destruct (sg_vec r'); [|reflexivity]. apply vec_of_ext; auto. }
  assert (Hcur2 : cur w' s2 = cur w s).
  { destruct Hon2 as [Hs2 _], Ho as [Hs _]. unfold cur. rewrite Hs2, Hs. cbn. destruct (sg_vec r); [|reflexivity]. apply vec_of_ext; auto. }
  pose proof (emitting_iff _ _ _ _ _ Ht Hthr Hef) as Hem.
  split.
  - intros i l b Hi. apply Hacc in Hi as [Hi|(Hl' & _)].
    + apply (V_ok _ _ HI) in Hi. destruct l; cbn in *; rewrite ?Hsg, ?Hvs, ?Hsl, ?app_length, ?alter_length; lia.
    + destruct Hl' as [->| ->]; cbn; rewrite Hsg, app_length, alter_length; cbn; unfold s2 in *; lia.
  - intros s' r' i b Ho' Hi. apply Hacc in Hi as [Hi|(Hl' & _ & Hk & Hp)].
    + apply Hon in Ho' as [(Ho' & _)|[[-> ->]|[-> ->]]].
      * apply Hmono. eapply V_ptr; eauto.
      * unfold sealed. cbn [sg_lock sg_set_vec]. destruct r; cbn in *. rewrite Hl. apply Hkm, Hkn. eapply V_ptr; eauto.
      * apply (V_ok _ _ HI) in Hi. cbn in Hi. unfold s2 in *. lia.
    + apply Hon in Ho' as [(Ho' & Hn & Hlt')|[[-> ->]|[-> ->]]].
      * destruct Hl' as [E|E]; injection E as ->; [congruence|lia].
      * unfold sealed. destruct r; cbn in *. rewrite Hl. exact Hk.
      * exact Hp.
  - intros s' r' v i Ho' Hv Hi. apply Hacc in Hi as [Hi|([Hl'|Hl'] & _ & Hp)]; try discriminate.
    apply Hon in Ho' as [(Ho' & _)|[[-> ->]|[-> ->]]].
    + apply Hmono. eapply V_vec; eauto.
    + destruct r; discriminate.
    + cbn in Hv. unfold sealed. cbn. apply Hpb, Hkn. eapply V_vec; eauto.
  - intros s' r' v l i b Ho' Hv Hh Hi. apply Hacc in Hi as [Hi|([Hl'|Hl'] & _ & Hp)]; try discriminate.
    apply Hon in Ho' as [(Ho' & Hn & Hlt')|[[-> ->]|[-> ->]]].
    + apply Hmono. eapply V_idx; eauto. destruct Hh as [Hh|Hh]; [left; rewrite <- Hcur; auto|right; rewrite <- Hsl; auto].
    + destruct r; discriminate.
    + cbn in Hv. unfold sealed. cbn. apply Hpb, Hkn. eapply V_idx; eauto. destruct Hh as [Hh|(x & Hx & Hxs)].
      * left. rewrite <- Hcur2. auto.
      * rewrite Hsl in Hx. pose proof (home_bound _ _ _ _ _ _ Hr Hx Hxs). unfold s2 in *. lia.
  - intros v i Hi. apply Hacc in Hi as [Hi|(_ & ? & _)]; [|discriminate].
    destruct (V_rd _ _ HI _ _ Hi) as [(s' & r' & Ho' & Hvv & Hg)|[(u & He & Hku)|Hp]].
    + left. destruct (decide (s' = s)) as [->|Hn].
      * destruct Ho as [Hs _], Ho' as [Hs' _]. simplify_eq. eexists s2, _. split; [exact Hon2|]. split; [exact Hvv|]. unfold sealed. cbn. auto.
      * exists s', r'. auto.
    + right. left. exists u. rewrite Hem. auto.
    + right. right. unfold tr2, tr1. apply publ_mono, publ_mono. auto.
  - intros u v i He Hi. apply Hem in He. apply Hacc in Hi as [Hi|([Hl'|Hl'] & _ & Hp)]; try discriminate.
    apply Hkm. eapply V_emit; eauto.
  - intros U u x f s' v i Hx Hf Hc Hp. unfold tr2, tr1 in Hp. apply publ_app in Hp; [|intros a Ha ->; apply elem_of_list_singleton in Ha; discriminate].
    apply publ_app in Hp; [|intros a Ha ->; rewrite !elem_of_cons, elem_of_nil in Ha; naive_solver].
    apply Hkm. rewrite Hthr in Hx. destruct (thr_upd _ _ _ _ _ _ Ht Hx) as [[-> ->]|[_ Hx']].
    + destruct (Hcr _ _ _ Hf Hc) as (g & Hg & Hc'). eapply (V_crit _ _ HI U); eauto.
    + eapply (V_crit _ _ HI U); eauto.
  - intros k u v' Hkk. rewrite Hvs. unfold tr2, tr1 in Hkk. rewrite <- app_assoc in Hkk.
    apply lookup_app_Some in Hkk as [Hkk|[_ Hkk]]; [eapply V_cnt; eauto|].
    apply elem_of_list_lookup_2 in Hkk. cbn in Hkk. rewrite !elem_of_cons, elem_of_nil in Hkk. naive_solver.
  - unfold tr2, tr1. rewrite <- blk_app. apply good_blk; [apply (V_good _ _ HI)|].
    intros l b Hin i a' Hi _. cbn in Hin. rewrite !elem_of_cons, elem_of_nil in Hin.
    destruct b; destruct Hin as [?|[?|[?|[]]]]; simplify_eq.
    + apply Hkn. eapply V_ptr; eauto.
    + exfalso. apply (V_ok _ _ HI) in Hi. cbn in Hi. unfold s2 in *. lia.
Qed.

(** A signal gives up its vector: with a new one (detach) or because it is
    destroyed.  [tr] already contains the acquire operations. *)
Lemma inv_leave e ps w w' tr t st st' s r v fresh : reachable e ps w -> Inv w tr ->
  w_thr w !! t = Some st -> w_thr w' = <[t := st']> (w_thr w) ->
  on w s r -> sg_vec r = Some v -> (forall i, sealed tr s r i -> known tr t i) ->
  (if fresh : bool
   then w_vecs w' = w_vecs w ++ [vec_of w v] /\ w_sigs w' = alter (sg_set_vec (Some (length (w_vecs w)))) s (w_sigs w) /\ sg_lock r = Some t
   else w_vecs w' = w_vecs w /\ w_sigs w' = alter (sg_set_alive false) s (w_sigs w)) ->
  w_slots w' = w_slots w ->
  (forall v, (exists f, f ∈ st' /\ frame_owns v f = true) <-> (exists f, f ∈ st /\ frame_owns v f = true)) ->
  (forall f s v, f ∈ st' -> crit_vec f = Some (s, v) -> (fresh = true /\ v = length (w_vecs w)) \/ exists g, g ∈ st /\ crit_vec g = Some (s, v)) ->
  (forall u x f s', w_thr w !! u = Some x -> f ∈ x -> crit_vec f <> Some (s', v)) ->
  Inv w' (tr ++ blk t ((if fresh then [Wr (LVec (length (w_vecs w)))] else []) ++ [Wr (LPtr s); Acq (YCount v); Rel (YCount v)])).
Proof.
  intros Hr HI Ht Hthr Ho Hv Hkn Hch Hsl Hef Hcr Hncr.
  set (v0 := length (w_vecs w)) in *. set (as1 := (if fresh then [Wr (LVec v0)] else []) ++ [Wr (LPtr s); Acq (YCount v)]).
  replace ((if fresh then [Wr (LVec v0)] else []) ++ [Wr (LPtr s); Acq (YCount v); Rel (YCount v)])
    with (as1 ++ [Rel (YCount v)]) by (unfold as1; rewrite <- app_assoc; reflexivity).
  rewrite blk_app. set (tr1 := tr ++ blk t as1). set (tr2 := tr1 ++ blk t [Rel (YCount v)]).
  pose proof (I_bound_inv _ _ _ Hr) as (Hb1 & Hb2 & Hb3 & Hb4).
  assert (Hvlt : v < v0) by (destruct Ho; eauto).
  assert (Hlen : length (w_vecs w) <= length (w_vecs w') /\ length (w_sigs w') = length (w_sigs w) /\ (fresh = true -> v0 < length (w_vecs w'))).
  { destruct fresh; [destruct Hch as (-> & -> & _)|destruct Hch as (-> & ->)]; rewrite ?app_length, alter_length; cbn; unfold v0; repeat split; try lia; discriminate. }
  destruct Hlen as (Hlv & Hls & Hlf).
  assert (Has : forall l (b : bool), (if b then Wr l else Rd l) ∈ as1 -> b = true /\ (l = LPtr s \/ (fresh = true /\ l = LVec v0))).
  { intros l b Hin. unfold as1 in Hin. rewrite elem_of_app, !elem_of_cons, elem_of_nil in Hin.
    destruct Hin as [Hin|[Hin|[Hin|[]]]]; [|destruct b; simplify_eq; auto|destruct b; discriminate].
    destruct fresh; [|inversion Hin]. apply elem_of_list_singleton in Hin. destruct b; simplify_eq. auto. }
  assert (Hacc : forall i l b, acc tr2 i l b ->
    acc tr i l b \/ ((l = LPtr s \/ (fresh = true /\ l = LVec v0)) /\ b = true /\ known tr2 t i)).
  { intros i l b Hi. apply acc_app in Hi as [Hi|[Hin _]]; [|apply elem_of_list_singleton in Hin; destruct b; discriminate].
    apply acc_app in Hi as [Hi|[Hin Hk]]; [auto|right]. apply Has in Hin as [-> Hin]. split; [exact Hin|]. split; [reflexivity|]. apply known_mono. exact Hk. }
  assert (Hon : forall s' r', on w' s' r' -> (on w s' r' /\ s' <> s) \/ (fresh = true /\ s' = s /\ r' = sg_set_vec (Some v0) r)).
  { intros s' r' [Hs Ha]. destruct Ho as [Hs0 Ha0]. destruct fresh.
    - destruct Hch as (_ & E & _). rewrite E, alter_lookup in Hs. case_decide as E'; [subst s'|left; repeat split; auto].
      rewrite Hs0 in Hs. cbn in Hs. simplify_eq. auto.
    - destruct Hch as (_ & E). rewrite E, alter_lookup in Hs. case_decide as E'; [subst s'|left; repeat split; auto].
      rewrite Hs0 in Hs. cbn in Hs. simplify_eq. }
  assert (Hon' : forall s' r', on w s' r' -> s' <> s -> on w' s' r').
  { intros s' r' [Hs Ha] Hn. split; [|auto]. destruct fresh; [destruct Hch as (_ & E & _)|destruct Hch as (_ & E)];
      rewrite E, alter_lookup, decide_False by auto; auto. }
  assert (Hmono : forall s r i, sealed tr s r i -> sealed tr2 s r i).
  { intros. unfold tr2, tr1. apply sealed_mono, sealed_mono. auto. }
  assert (Hkm : forall u i, known tr u i -> known tr2 u i).
  { intros. unfold tr2, tr1. apply known_mono, known_mono. auto. }
  assert (Hcur : forall s', s' <> s -> cur w' s' = cur w s').
  { intros s' Hn. unfold cur. assert (w_sigs w' !! s' = w_sigs w !! s') as ->.
    { destruct fresh; [destruct Hch as (_ & E & _)|destruct Hch as (_ & E)]; rewrite E, alter_lookup, decide_False by auto; auto. }
    destruct (w_sigs w !! s') as [r'|] eqn:E; [|reflexivity].
    destruct (sg_vec r') as [v'|] eqn:Ev; [|reflexivity]. destruct fresh; [eapply vec_of_snoc; [apply Hch|eauto]|apply vec_of_ext; apply Hch]. }
  pose proof (emitting_iff _ _ _ _ _ Ht Hthr Hef) as Hem.
  split.
  - intros i l b Hi. apply Hacc in Hi as [Hi|(Hl' & _)].
    + apply (V_ok _ _ HI) in Hi. destruct l; cbn in *; rewrite ?Hls, ?Hsl; lia.
    + destruct Hl' as [->|[Hf ->]]; cbn; [|auto]. rewrite Hls. destruct Ho. eapply lookup_lt_Some; eauto.
  - intros s' r' i b Ho' Hi. apply Hacc in Hi as [Hi|(Hl' & _ & Hk)].
    + apply Hon in Ho' as [(Ho' & _)|(Hf & -> & ->)].
      * apply Hmono. eapply V_ptr; eauto.
      * subst fresh. destruct Hch as (_ & _ & Hl). unfold sealed. destruct r; cbn in *. rewrite Hl. apply Hkm, Hkn. eapply V_ptr; eauto.
    + apply Hon in Ho' as [(Ho' & Hn)|(Hf & -> & ->)].
      * destruct Hl' as [E|[_ E]]; simplify_eq.
      * subst fresh. destruct Hch as (_ & _ & Hl). unfold sealed. destruct r; cbn in *. rewrite Hl. exact Hk.
  - intros s' r' v' i Ho' Hv' Hi. apply Hacc in Hi as [Hi|([Hl'|[Hf Hl']] & _ & Hk)]; try discriminate;
    apply Hon in Ho' as [(Ho' & Hn)|(Hf' & -> & ->)].
    + apply Hmono. eapply V_vec; eauto.
    + destruct r; cbn in Hv'. injection Hv' as <-. apply (V_ok _ _ HI) in Hi. cbn in Hi. unfold v0 in *. lia.
    + injection Hl' as ->. destruct Ho' as [Hs' _]. pose proof (Hb1 _ _ _ Hs' Hv'). unfold v0 in *. lia.
    + subst fresh. destruct Hch as (_ & _ & Hl). unfold sealed. destruct r; cbn in *. rewrite Hl. exact Hk.
  - intros s' r' v' l i b Ho' Hv' Hh Hi. apply Hacc in Hi as [Hi|([Hl'|[_ Hl']] & _ & Hk)]; try discriminate.
    apply Hon in Ho' as [(Ho' & Hn)|(Hf' & -> & ->)].
    + apply Hmono. eapply V_idx; eauto. destruct Hh as [Hh|Hh]; [left; rewrite <- Hcur; auto|right; rewrite <- Hsl; auto].
    + subst fresh. destruct Hch as (Hvs & Hsg & Hl). unfold sealed. destruct r; cbn in *. rewrite Hl. apply Hkm, Hkn.
      eapply V_idx; eauto. destruct Hh as [Hh|Hh]; [left|right; rewrite <- Hsl; auto].
      destruct Ho as [Hs _]. unfold cur in *. rewrite Hsg, alter_lookup, decide_True, Hs in Hh by auto. cbn in Hh.
      unfold v0 in Hh. rewrite (vec_of_snoc_new w w' _ Hvs) in Hh. rewrite Hs. cbn in *. rewrite Hv. exact Hh.
  - intros v' i Hi. apply Hacc in Hi as [Hi|(_ & ? & _)]; [|discriminate].
    destruct (V_rd _ _ HI _ _ Hi) as [(s' & r' & Ho' & Hvv & Hg)|[(u & He & Hku)|Hp]].
    + destruct (decide (s' = s)) as [->|Hn].
      * destruct Ho as [Hs _], Ho' as [Hs' _]. simplify_eq. right. right. apply known_publ. unfold tr1. apply known_mono. auto.
      * left. exists s', r'. auto.
    + right. left. exists u. rewrite Hem. auto.
    + right. right. unfold tr2, tr1. apply publ_mono, publ_mono. auto.
  - intros u v' i He Hi. apply Hem in He. apply Hacc in Hi as [Hi|([Hl'|[_ Hl']] & _ & Hp)]; try discriminate.
    + apply Hkm. eapply V_emit; eauto.
    + injection Hl' as ->. pose proof (emitting_bound _ _ _ _ _ Hr He). unfold v0 in *. lia.
  - intros U u x f s' v' i Hx Hf Hc Hp. rewrite Hthr in Hx.
    assert (Hcv : (exists y g, w_thr w !! u = Some y /\ g ∈ y /\ crit_vec g = Some (s', v')) \/ v' = v0).
    { destruct (thr_upd _ _ _ _ _ _ Ht Hx) as [[-> ->]|[_ Hx']]; [|eauto 10].
      destruct (Hcr _ _ _ Hf Hc) as [[_ ->]|(g & Hg & Hc')]; eauto 10. }
    destruct Hcv as [(y & g & Hy & Hg & Hc')| ->].
    + assert (v' <> v) by (intros ->; eapply Hncr; eauto).
      unfold tr2, tr1 in Hp. apply publ_app in Hp; [|intros a Ha ->; apply elem_of_list_singleton in Ha; simplify_eq].
      apply publ_app in Hp; [|intros a Ha ->; unfold as1 in Ha; rewrite elem_of_app, !elem_of_cons, elem_of_nil in Ha; destruct fresh; set_solver].
      apply Hkm. eapply (V_crit _ _ HI U); eauto.
    + exfalso. destruct Hp as (k & u' & Hk & _). unfold tr2, tr1 in Hk. rewrite <- app_assoc, <- fmap_app in Hk.
      apply lookup_app_Some in Hk as [Hk|[_ Hk]]; [pose proof (V_cnt _ _ HI _ _ _ Hk); unfold v0 in *; lia|].
      apply elem_of_list_lookup_2, elem_of_list_fmap in Hk as (a & Hk & E). injection Hk as _ <-. unfold as1 in E. rewrite !elem_of_app, !elem_of_cons, !elem_of_nil in E.
      destruct E as [[E|[?|[?|[]]]]|[?|[]]]; try discriminate.
      * destruct fresh; [apply elem_of_list_singleton in E; discriminate|inversion E].
      * simplify_eq. lia.
  - intros k u v' Hk. unfold tr2, tr1 in Hk. rewrite <- app_assoc, <- fmap_app in Hk.
    apply lookup_app_Some in Hk as [Hk|[_ Hk]]; [pose proof (V_cnt _ _ HI _ _ _ Hk); lia|].
    apply elem_of_list_lookup_2, elem_of_list_fmap in Hk as (a & Hk & E). injection Hk as _ <-. unfold as1 in E. rewrite !elem_of_app, !elem_of_cons, !elem_of_nil in E.
    destruct E as [[E|[?|[?|[]]]]|[?|[]]]; try discriminate.
    * destruct fresh; [apply elem_of_list_singleton in E; discriminate|inversion E].
    * simplify_eq. unfold v0 in *. lia.
  - unfold tr2, tr1. rewrite <- blk_app. apply good_blk; [apply (V_good _ _ HI)|].
    intros l b Hin i a' Hi _. apply elem_of_app in Hin as [Hin|Hin]; [|apply elem_of_list_singleton in Hin; destruct b; discriminate].
    apply Has in Hin as [-> [->|[_ ->]]].
    + apply Hkn. eapply V_ptr; eauto.
    + exfalso. apply (V_ok _ _ HI) in Hi. cbn in Hi. unfold v0 in *. lia.
Qed.
End proof.
