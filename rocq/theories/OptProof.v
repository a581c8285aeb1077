(** * Proofs about the model of optional<T> *)
From Verif Require Export OptSpec.
Set Default Goal Selector "!".

Section P.
Context (mv : Z -> Z).

(** ** The relation between the state of the model and abstract values *)
Definition cellrep (objs : list (Z * bool)) (oc : option cell) (ox : option (option Z)) : Prop :=
  match oc, ox with
  | None, None => True
  | Some (Cell true (Some o)), Some (Some z) => objs !! o = Some (z, true)
  | Some (Cell false None), Some None => True
  | _, _ => False
  end.
Definition held (oc : option cell) : option oid := match oc with Some c => c_obj c | None => None end.
Definition owned (vars : list (option cell)) (ts : list (oid * Z)) : list oid := omap held vars ++ ts.*1.
Arguments owned : simpl never.
Arguments destroy : simpl never.
Definition life_of (x : option (Z * bool)) : life := match x with None => Unborn | Some (_, true) => Alive | Some (_, false) => Dead end.
Record A (f : bool) (w : ow) (vs : ovals) (ts : list (oid * Z)) : Prop := {
  a_fine : f = true -> Forall (eq TFine) (w_or w);
  a_opt : Forall2 (cellrep (w_objs w)) (w_opt w) vs;
  a_ts : Forall (fun x => w_objs w !! x.1 = Some (x.2, true)) ts;
  a_nd : NoDup (owned (w_opt w) ts);
  a_live : forall o z, w_objs w !! o = Some (z, true) -> o ∈ owned (w_opt w) ts;
  a_log : forall o, olife o (w_ev w) = life_of (w_objs w !! o);
}.

Lemma A_perm f w vs ts ts' : A f w vs ts -> ts ≡ₚ ts' -> A f w vs ts'.
Proof.
  intros [H1 H2 H3 H4 H5 H6] Hp.
  assert (Ho : owned (w_opt w) ts ≡ₚ owned (w_opt w) ts') by (unfold owned; by rewrite Hp).
  constructor; [done..| | | |done].
  - by rewrite <- Hp.
  - by rewrite <- Ho.
  - intros o z Hz. rewrite <- Ho. eauto.
Qed.

Lemma cell_of f w vs ts i x : A f w vs ts -> vs !! i = Some (Some x) ->
  match x with
  | None => w_opt w !! i = Some (Some (Cell false None))
  | Some z => exists o, w_opt w !! i = Some (Some (Cell true (Some o))) /\ w_objs w !! o = Some (z, true)
  end.
Proof.
  intros HA Hi. destruct (Forall2_lookup_r _ _ _ _ _ (a_opt _ _ _ _ HA) Hi) as (oc & Hc & Hr).
  destruct oc as [[[] [o|]]|], x as [z|]; cbn in Hr; try done. eauto.
Qed.
Lemma cell_none f w vs ts i : A f w vs ts -> (forall x, vs !! i <> Some (Some x)) ->
  forall c, w_opt w !! i <> Some (Some c).
Proof.
  intros HA Hi c Hc. destruct (Forall2_lookup_l _ _ _ _ _ (a_opt _ _ _ _ HA) Hc) as (ox & Hx & Hr).
  destruct c as [[] [o|]], ox as [[z|]|]; cbn in Hr; try done; by apply (Hi _ Hx).
Qed.
Lemma A_len f w vs ts : A f w vs ts -> length (w_opt w) = length vs.
Proof. intros HA. by eapply Forall2_length, a_opt. Qed.

(** ** State changes *)
Lemma A_use f w vs ts o z : A f w vs ts -> w_objs w !! o = Some (z, true) -> A f (log_ev w (EvUse o)) vs ts.
Proof.
  intros [H1 H2 H3 H4 H5 H6] Ho. constructor; try done. intros o'. cbn. case_decide; subst; rewrite H6; [by rewrite Ho|done].
Qed.
Lemma A_pop f w vs ts t w' : A f w vs ts -> pop w = (t, w') ->
  A f w' vs ts /\ w_objs w' = w_objs w /\ w_opt w' = w_opt w /\ (t <> TFine -> f = false).
Proof.
  intros HA Hp. unfold pop in Hp. destruct (w_or w) as [|t0 l] eqn:E; inversion Hp; subst; [split; [done|naive_solver]|].
  destruct HA as [H1 H2 H3 H4 H5 H6]. rewrite E in H1.
  split; [constructor; try done; cbn; intros Hf; by apply Forall_cons in H1 as [_ ?]|].
  split; [done|]. split; [done|]. intros Ht. destruct f; [|done]. specialize (H1 eq_refl). by apply Forall_cons in H1 as [<- _].
Qed.
Lemma rep_mono objs objs' oc ox : cellrep objs oc ox ->
  (forall o, held oc = Some o -> objs' !! o = objs !! o) -> cellrep objs' oc ox.
Proof. destruct oc as [[[] [o|]]|], ox as [[z|]|]; cbn; try done. intros H Hm. by rewrite (Hm o). Qed.

Definition add_obj (w : ow) (z : Z) : ow :=
  OW (w_or w) (w_objs w ++ [(z, true)]) (EvCon (length (w_objs w)) :: w_ev w) (w_opt w).
Lemma A_new f w vs ts z : A f w vs ts -> A f (add_obj w z) vs ((length (w_objs w), z) :: ts).
Proof.
  intros [H1 H2 H3 H4 H5 H6].
  assert (Hb : forall o x, w_objs w !! o = Some x -> (w_objs w ++ [(z, true)]) !! o = Some x).
  { intros. by apply lookup_app_l_Some. }
  assert (Hl : forall o, o ∈ owned (w_opt w) ts -> o < length (w_objs w)).
  { intros o Ho. apply elem_of_app in Ho as [Ho|Ho].
    - apply elem_of_list_omap in Ho as (oc & Hin & Ho). apply elem_of_list_lookup in Hin as [i Hi].
      destruct (Forall2_lookup_l _ _ _ _ _ H2 Hi) as (ox & _ & Hr).
      destruct oc as [[[] [o'|]]|], ox as [[z'|]|]; cbn in *; try done. simplify_eq. by eapply lookup_lt_Some.
    - apply elem_of_list_fmap in Ho as ([o' z'] & -> & Hin). rewrite Forall_forall in H3.
      specialize (H3 _ Hin). by eapply lookup_lt_Some. }
  constructor; cbn.
  - done.
  - eapply Forall2_impl; [exact H2|]. intros oc ox Hr. cbn in Hr.
    destruct oc as [[[] [o|]]|], ox as [[z'|]|]; cbn in *; try done. by apply Hb.
  - constructor; [cbn; by rewrite lookup_app_r, Nat.sub_diag by lia|].
    eapply Forall_impl; [exact H3|]. intros x. apply Hb.
  - unfold owned in *. cbn. rewrite <- Permutation_middle. constructor; [|done].
    intros Hin. apply Hl in Hin. lia.
  - intros o z' Ho. unfold owned in *. cbn. rewrite <- Permutation_middle. apply elem_of_cons.
    apply lookup_app_Some in Ho as [Ho|[Hle Ho]]; [right; eauto|left].
    apply list_lookup_singleton_Some in Ho as [Ho _]. lia.
  - intros o. case_decide as Hd.
    + subst. rewrite H6, lookup_ge_None_2 by lia. cbn. by rewrite lookup_app_r, Nat.sub_diag by lia.
    + rewrite H6. destruct (decide (o < length (w_objs w))); [by rewrite lookup_app_l|].
      rewrite (lookup_ge_None_2 (w_objs w)) by lia. by rewrite lookup_ge_None_2 by (rewrite app_length; cbn; lia).
Qed.

(** An object has one owner. *)
Lemma own_var (vars : list (option cell)) ts i j o :
  NoDup (owned vars ts) -> vars !! i ≫= held = Some o -> vars !! j ≫= held = Some o -> i = j.
Proof.
  intros Hnd. apply NoDup_app in Hnd as [Hnd _]. revert i j Hnd.
  induction vars as [|v vars IH]; intros i j Hnd Hi Hj; [done|].
  assert (Hin : forall k, vars !! k ≫= held = Some o -> o ∈ omap held vars).
  { intros k Hk. apply bind_Some in Hk as (c & Hc & Ho). apply elem_of_list_omap. exists c. split; [|done]. by eapply elem_of_list_lookup_2. }
  destruct i as [|i], j as [|j]; cbn in Hi, Hj; [done| | |].
  - exfalso. cbn in Hnd. rewrite Hi in Hnd. apply NoDup_cons in Hnd as [Hn _]. eauto.
  - exfalso. cbn in Hnd. rewrite Hj in Hnd. apply NoDup_cons in Hnd as [Hn _]. eauto.
  - f_equal. apply IH; try done. cbn in Hnd. destruct (held v); [by apply NoDup_cons in Hnd as [_ ?]|done].
Qed.
Lemma own_tmp (vars : list (option cell)) ts i o :
  NoDup (owned vars ts) -> vars !! i ≫= held = Some o -> o ∉ ts.*1.
Proof.
  intros Hnd Hi Hin. apply NoDup_app in Hnd as (_ & Hd & _). eapply (Hd o); [|done].
  apply bind_Some in Hi as (c & Hc & Ho). apply elem_of_list_omap. exists c. split; [|done]. by eapply elem_of_list_lookup_2.
Qed.
Lemma owned_insert (vars : list (option cell)) ts i c c' :
  vars !! i = Some c -> held c = held c' -> owned (<[i := c']> vars) ts = owned vars ts.
Proof.
  intros Hi Hc. unfold owned. f_equal.
  revert i Hi. induction vars as [|v vars IH]; intros [|i] Hi; try done.
  - cbn in *. simplify_eq. by rewrite Hc.
  - cbn in *. by rewrite IH.
Qed.
Lemma owned_take (vars : list (option cell)) ts i c o z :
  vars !! i = Some c -> held c = None ->
  owned (<[i := Some (Cell true (Some o))]> vars) ts ≡ₚ owned vars ((o, z) :: ts).
Proof.
  intros Hi Hc. unfold owned. cbn. rewrite <- Permutation_middle.
  revert i Hi. induction vars as [|v vars IH]; intros [|i] Hi; try done.
  - cbn in *. simplify_eq. by rewrite Hc.
  - cbn in *. rewrite <- app_comm_cons || idtac. destruct (held v); cbn; rewrite IH by done; [apply Permutation_swap|done].
Qed.
Lemma owned_drop (vars : list (option cell)) ts i o c' :
  vars !! i = Some (Some (Cell true (Some o))) -> held c' = None ->
  owned vars ts ≡ₚ o :: owned (<[i := c']> vars) ts.
Proof.
  intros Hi Hc. unfold owned.
  revert i Hi. induction vars as [|v vars IH]; intros [|i] Hi; try done.
  - cbn in *. simplify_eq. by rewrite Hc.
  - cbn in *. destruct (held v); cbn; rewrite IH by done; [apply Permutation_swap|done].
Qed.

Lemma A_put_var f w vs ts i o x z :
  A f w vs ts -> w_opt w !! i = Some (Some (Cell true (Some o))) -> w_objs w !! o = Some (x, true) ->
  A f (set_obj w o (z, true)) (put_var vs i (Some z)) ts.
Proof.
  intros [H1 H2 H3 H4 H5 H6] Hi Ho. pose proof (lookup_lt_Some _ _ _ Ho) as Hlt. constructor; cbn; try done.
  - apply Forall2_same_length_lookup_2; [unfold put_var; rewrite insert_length; by eapply Forall2_length|].
    intros k oc ox Hoc Hox. unfold put_var in Hox. destruct (decide (k = i)) as [->|Hk].
    + rewrite list_lookup_insert in Hox by (pose proof (Forall2_length _ _ _ H2); pose proof (lookup_lt_Some _ _ _ Hi); lia).
      rewrite Hi in Hoc. simplify_eq. cbn. by apply list_lookup_insert.
    + rewrite list_lookup_insert_ne in Hox by done.
      pose proof (Forall2_lookup_lr _ _ _ _ _ _ H2 Hoc Hox) as Hr. eapply rep_mono; [exact Hr|].
      intros o' Ho'. apply list_lookup_insert_ne. intros ->. apply Hk.
      eapply (own_var _ _ k i o' H4); [by rewrite Hoc|by rewrite Hi].
  - apply Forall_forall. intros [o' z'] Hin. pose proof (proj1 (Forall_forall _ _) H3 _ Hin) as Hz. cbn in *.
    rewrite list_lookup_insert_ne; [done|]. intros ->. eapply (own_tmp _ _ i _ H4); [by rewrite Hi|].
    apply elem_of_list_fmap. by exists (o', z').
  - intros o' z' Ho'. destruct (decide (o = o')) as [->|].
    + by eapply H5.
    + rewrite list_lookup_insert_ne in Ho' by done. eauto.
  - intros o'. rewrite H6. destruct (decide (o = o')) as [->|].
    + by rewrite list_lookup_insert, Ho.
    + by rewrite list_lookup_insert_ne.
Qed.
Lemma A_put_tmp f w vs ts o x z :
  A f w vs ((o, x) :: ts) -> A f (set_obj w o (z, true)) vs ((o, z) :: ts).
Proof.
  intros [H1 H2 H3 H4 H5 H6]. apply Forall_cons in H3 as [Ho H3]. cbn in Ho.
  pose proof (lookup_lt_Some _ _ _ Ho) as Hlt. constructor; cbn; try done.
  - apply Forall2_same_length_lookup_2; [by eapply Forall2_length|].
    intros k oc ox Hoc Hox. pose proof (Forall2_lookup_lr _ _ _ _ _ _ H2 Hoc Hox) as Hr. eapply rep_mono; [exact Hr|].
    intros o' Ho'. apply list_lookup_insert_ne. intros ->.
    eapply (own_tmp _ _ k o' H4); [by rewrite Hoc|]. cbn. left.
  - constructor; [cbn; by apply list_lookup_insert|].
    apply Forall_forall. intros [o' z'] Hin. pose proof (proj1 (Forall_forall _ _) H3 _ Hin) as Hz. cbn in *.
    rewrite list_lookup_insert_ne; [done|]. intros ->. unfold owned in H4. cbn in H4.
    apply NoDup_app in H4 as (_ & _ & H4). apply NoDup_cons in H4 as [H4 _]. apply H4. apply elem_of_list_fmap. by exists (o', z').
  - intros o' z' Ho'. destruct (decide (o = o')) as [->|].
    + by eapply H5.
    + rewrite list_lookup_insert_ne in Ho' by done. by eapply H5.
  - intros o'. rewrite H6. destruct (decide (o = o')) as [->|].
    + by rewrite list_lookup_insert, Ho.
    + by rewrite list_lookup_insert_ne.
Qed.

Definition dead_obj (w : ow) (o : oid) (z : Z) : ow := log_ev (set_obj w o (z, false)) (EvDes o).
Definition put_cell (w : ow) (i : nat) (c : option cell) : ow := OW (w_or w) (w_objs w) (w_ev w) (<[i := c]> (w_opt w)).
Lemma A_des_tmp f w vs ts o x : A f w vs ((o, x) :: ts) -> A f (dead_obj w o x) vs ts.
Proof.
  intros [H1 H2 H3 H4 H5 H6]. apply Forall_cons in H3 as [Ho H3]. cbn in Ho.
  pose proof (lookup_lt_Some _ _ _ Ho) as Hlt.
  assert (Hnd : NoDup (o :: owned (w_opt w) ts)) by (unfold owned in *; cbn in H4; by rewrite <- Permutation_middle in H4).
  apply NoDup_cons in Hnd as [Hnin Hnd].
  constructor; cbn; try done.
  - apply Forall2_same_length_lookup_2; [by eapply Forall2_length|].
    intros k oc ox Hoc Hox. pose proof (Forall2_lookup_lr _ _ _ _ _ _ H2 Hoc Hox) as Hr. eapply rep_mono; [exact Hr|].
    intros o' Ho'. apply list_lookup_insert_ne. intros ->.
    eapply (own_tmp _ _ k o' H4); [by rewrite Hoc|]. cbn. left.
  - apply Forall_forall. intros [o' z'] Hin. pose proof (proj1 (Forall_forall _ _) H3 _ Hin) as Hz. cbn in *.
    rewrite list_lookup_insert_ne; [done|]. intros ->. apply Hnin. unfold owned. apply elem_of_app. right.
    apply elem_of_list_fmap. by exists (o', z').
  - intros o' z' Ho'. destruct (decide (o = o')) as [->|Hne].
    + by rewrite list_lookup_insert in Ho'.
    + rewrite list_lookup_insert_ne in Ho' by done. apply H5 in Ho'. unfold owned in *. cbn in Ho'.
      rewrite <- Permutation_middle in Ho'. by apply elem_of_cons in Ho' as [->|?].
  - intros o'. case_decide as Hd.
    + subst. rewrite H6, Ho. cbn. by rewrite list_lookup_insert.
    + rewrite H6. by rewrite list_lookup_insert_ne.
Qed.
Lemma A_des_var f w vs ts i o x (b : bool) :
  A f w vs ts -> w_opt w !! i = Some (Some (Cell true (Some o))) -> w_objs w !! o = Some (x, true) ->
  A f (put_cell (dead_obj w o x) i (if b then Some (Cell false None) else None)) (<[i := if b then Some None else None]> vs) ts.
Proof.
  intros [H1 H2 H3 H4 H5 H6] Hi Ho. pose proof (lookup_lt_Some _ _ _ Ho) as Hlt.
  pose proof (owned_drop (w_opt w) ts i o (if b then Some (Cell false None) else None) Hi ltac:(by destruct b)) as Hd.
  pose proof H4 as H4'. rewrite Hd in H4'. apply NoDup_cons in H4' as [Hnin Hnd].
  constructor; cbn; try done.
  - apply Forall2_same_length_lookup_2; [rewrite !insert_length; by eapply Forall2_length|].
    intros k oc ox Hoc Hox. destruct (decide (k = i)) as [->|Hk].
    + rewrite list_lookup_insert in Hoc by (by eapply lookup_lt_Some).
      rewrite list_lookup_insert in Hox by (pose proof (Forall2_length _ _ _ H2); pose proof (lookup_lt_Some _ _ _ Hi); lia).
      destruct b; simplify_eq; done.
    + rewrite list_lookup_insert_ne in Hoc by done. rewrite list_lookup_insert_ne in Hox by done.
      pose proof (Forall2_lookup_lr _ _ _ _ _ _ H2 Hoc Hox) as Hr. eapply rep_mono; [exact Hr|].
      intros o' Ho'. apply list_lookup_insert_ne. intros ->. apply Hk.
      eapply (own_var _ _ k i o' H4); [by rewrite Hoc|by rewrite Hi].
  - apply Forall_forall. intros [o' z'] Hin. pose proof (proj1 (Forall_forall _ _) H3 _ Hin) as Hz. cbn in *.
    rewrite list_lookup_insert_ne; [done|]. intros ->. eapply (own_tmp _ _ i _ H4); [by rewrite Hi|].
    apply elem_of_list_fmap. by exists (o', z').
  - intros o' z' Ho'. destruct (decide (o = o')) as [->|Hne].
    + by rewrite list_lookup_insert in Ho'.
    + rewrite list_lookup_insert_ne in Ho' by done. apply H5 in Ho'. rewrite Hd in Ho'. by apply elem_of_cons in Ho' as [->|?].
  - intros o'. case_decide as Hdd.
    + subst. rewrite H6, Ho. cbn. by rewrite list_lookup_insert.
    + rewrite H6. by rewrite list_lookup_insert_ne.
Qed.
Lemma A_place f w vs ts i o z :
  A f w vs ((o, z) :: ts) -> vs !! i = Some (Some None) ->
  A f (put_cell w i (Some (Cell true (Some o)))) (put_var vs i (Some z)) ts.
Proof.
  intros HA Hv. pose proof (cell_of _ _ _ _ _ _ HA Hv) as Hc. cbn in Hc. destruct HA as [H1 H2 H3 H4 H5 H6].
  apply Forall_cons in H3 as [Ho H3].
  pose proof (owned_take (w_opt w) ts i _ o z Hc eq_refl) as Hd.
  constructor; cbn; try done.
  - apply Forall2_insert; done.
  - by rewrite Hd.
  - intros o' z' Ho'. rewrite Hd. eauto.
Qed.
Lemma A_same_cell f w vs ts i c x : A f w vs ts -> w_opt w !! i = Some (Some c) -> vs !! i = Some x ->
  A f (put_cell w i (Some c)) (<[i := x]> vs) ts.
Proof.
  intros HA Hi Hx. unfold put_cell. rewrite (list_insert_id _ _ _ Hi), (list_insert_id _ _ _ Hx). by destruct w.
Qed.
Lemma A_empty_delete f w vs ts i : A f w vs ts -> vs !! i = Some (Some None) -> A f (put_cell w i None) (<[i := None]> vs) ts.
Proof.
  intros HA Hv. pose proof (cell_of _ _ _ _ _ _ HA Hv) as Hc. cbn in Hc. destruct HA as [H1 H2 H3 H4 H5 H6].
  constructor; cbn; try done.
  - by apply Forall2_insert.
  - by rewrite (owned_insert _ _ _ (Some (Cell false None))).
  - intros. rewrite (owned_insert _ _ _ (Some (Cell false None))); eauto.
Qed.
Definition push_cell (w : ow) (c : cell) : ow := OW (w_or w) (w_objs w) (w_ev w) (w_opt w ++ [Some c]).
Lemma A_push_none f w vs ts : A f w vs ts -> A f (push_cell w (Cell false None)) (vs ++ [Some None]) ts.
Proof.
  intros [H1 H2 H3 H4 H5 H6].
  assert (Ho : owned (w_opt w ++ [Some (Cell false None)]) ts = owned (w_opt w) ts).
  { unfold owned. rewrite omap_app. cbn. by rewrite app_nil_r. }
  constructor; cbn; try done.
  - apply Forall2_app; [done|]. by constructor.
  - by rewrite Ho.
  - intros. rewrite Ho. eauto.
Qed.
Lemma A_push_some f w vs ts o z : A f w vs ((o, z) :: ts) -> A f (push_cell w (Cell true (Some o))) (vs ++ [Some (Some z)]) ts.
Proof.
  intros [H1 H2 H3 H4 H5 H6]. apply Forall_cons in H3 as [Hz H3].
  assert (Ho : owned (w_opt w ++ [Some (Cell true (Some o))]) ts = owned (w_opt w) ((o, z) :: ts)).
  { unfold owned. rewrite omap_app. cbn. by rewrite <- app_assoc. }
  constructor; cbn; try done.
  - apply Forall2_app; [done|]. by constructor.
  - by rewrite Ho.
  - intros. rewrite Ho. eauto.
Qed.

(** ** Weakest preconditions *)
Definition wp {B} (m : M B) (w : ow) (Q : B -> ow -> Prop) (X : oexn -> ow -> Prop) : Prop :=
  match m w with Ok a w' => Q a w' | Throw x w' => X x w' | Bad => False end.
Arguments wp : simpl never.
Lemma wp_bind {B C} (m : M B) (k : B -> M C) w (Q : _ -> ow -> Prop) (X : oexn -> ow -> Prop) :
  wp m w (fun a w' => wp (k a) w' Q X) X -> wp (bind m k) w Q X.
Proof. unfold wp, bind. destruct (m w); done. Qed.
Lemma wp_ret {B} (a : B) w (Q : B -> ow -> Prop) X : Q a w -> wp (ret a) w Q X.
Proof. done. Qed.
Lemma wp_finally {B} (m : M B) fin w (Q : _ -> ow -> Prop) (X : oexn -> ow -> Prop) :
  wp m w (fun a w' => wp fin w' (fun _ => Q a) X) (fun x w' => wp fin w' (fun _ => X x) X) -> wp (finally m fin) w Q X.
Proof.
  unfold wp, finally, bind. destruct (m w) as [a w'|x w'|]; try done; by destruct (fin w').
Qed.
Lemma wp_mono {B} (m : M B) w (Q Q' : B -> ow -> Prop) (X X' : oexn -> ow -> Prop) :
  wp m w Q X -> (forall a w', Q a w' -> Q' a w') -> (forall x w', X x w' -> X' x w') -> wp m w Q' X'.
Proof. unfold wp. intros H1 H2 H3. destruct (m w); eauto. Qed.

Lemma val_of f w vs ts i o z : A f w vs ts -> w_opt w !! i = Some (Some (Cell true (Some o))) ->
  vs !! i = Some (Some (Some z)) -> w_objs w !! o = Some (z, true).
Proof. intros HA Hi Hv. destruct (cell_of _ _ _ _ _ _ HA Hv) as (o' & Ho & ?). by simplify_eq. Qed.
Lemma val_tmp f w vs ts o z : A f w vs ((o, z) :: ts) -> w_objs w !! o = Some (z, true).
Proof. intros HA. pose proof (a_ts _ _ _ _ HA) as H. by apply Forall_cons in H as [? _]. Qed.
Lemma put_same (vs : ovals) i x : vs !! i = Some (Some x) -> put_var vs i x !! i = Some (Some x).
Proof. intros H. apply list_lookup_insert. by eapply lookup_lt_Some. Qed.
Lemma put_at (vs : ovals) i y x : vs !! i = Some y -> put_var vs i x !! i = Some (Some x).
Proof. intros H. apply list_lookup_insert. by eapply lookup_lt_Some. Qed.

Lemma wp_use f w vs ts o z (Q : _ -> ow -> Prop) (X : oexn -> ow -> Prop) : A f w vs ts -> w_objs w !! o = Some (z, true) ->
  (forall w', A f w' vs ts -> w_objs w' = w_objs w -> w_opt w' = w_opt w -> Q z w') -> wp (use o) w Q X.
Proof. intros HA Ho HQ. unfold wp, use. rewrite Ho. apply HQ; [by eapply A_use|done..]. Qed.
Lemma wp_put_var f w vs ts i o z' z (Q : _ -> ow -> Prop) (X : oexn -> ow -> Prop) : A f w vs ts -> w_opt w !! i = Some (Some (Cell true (Some o))) ->
  vs !! i = Some (Some (Some z')) ->
  (forall w', A f w' (put_var vs i (Some z)) ts -> w_opt w' = w_opt w -> Q tt w') -> wp (put o z) w Q X.
Proof.
  intros HA Hi Hv HQ. pose proof (val_of _ _ _ _ _ _ _ HA Hi Hv) as Ho. unfold wp, put. rewrite Ho.
  apply HQ; [by eapply A_put_var|done].
Qed.
Lemma wp_put_tmp f w vs ts o z' z (Q : _ -> ow -> Prop) (X : oexn -> ow -> Prop) : A f w vs ((o, z') :: ts) ->
  (forall w', A f w' vs ((o, z) :: ts) -> w_opt w' = w_opt w -> Q tt w') -> wp (put o z) w Q X.
Proof.
  intros HA HQ. pose proof (val_tmp _ _ _ _ _ _ HA) as Ho. unfold wp, put. rewrite Ho.
  apply HQ; [by eapply A_put_tmp|done].
Qed.
Lemma wp_des_tmp f w vs ts o z (Q : _ -> ow -> Prop) (X : oexn -> ow -> Prop) : A f w vs ((o, z) :: ts) ->
  (forall w', A f w' vs ts -> w_opt w' = w_opt w -> Q tt w') -> wp (des o) w Q X.
Proof.
  intros HA HQ. pose proof (val_tmp _ _ _ _ _ _ HA) as Ho. unfold wp, des. rewrite Ho.
  apply HQ; [by eapply A_des_tmp in HA|done].
Qed.
Lemma wp_make f w vs ts z (Q : _ -> ow -> Prop) (X : oexn -> ow -> Prop) : A f w vs ts ->
  (forall n w', A f w' vs ((n, z) :: ts) -> w_opt w' = w_opt w -> Q n w') ->
  (f = false -> forall w', A f w' vs ts -> w_opt w' = w_opt w -> X XT w') -> wp (make z) w Q X.
Proof.
  intros HA HQ HX. unfold wp, make. destruct (pop w) as [t w1] eqn:Hp.
  destruct (A_pop _ _ _ _ _ _ HA Hp) as (HA1 & Ho & Hc & Hf). destruct t.
  - apply HQ; [by apply A_new|done].
  - apply HX; [by apply Hf|done..].
Qed.
Lemma wp_copy_var f w vs ts i o z (Q : _ -> ow -> Prop) (X : oexn -> ow -> Prop) : A f w vs ts -> w_opt w !! i = Some (Some (Cell true (Some o))) ->
  vs !! i = Some (Some (Some z)) ->
  (forall n w', A f w' vs ((n, z) :: ts) -> w_opt w' = w_opt w -> Q n w') ->
  (f = false -> forall w', A f w' vs ts -> w_opt w' = w_opt w -> X XT w') -> wp (make_copy o) w Q X.
Proof.
  intros HA Hi Hv HQ HX. apply wp_bind. eapply wp_use; [done|by eapply val_of|].
  intros w1 HA1 _ Hc. eapply wp_make; [done| |]; rewrite Hc; eauto.
Qed.
(** A popped outcome. *)
Lemma wp_pop {B} f w vs ts (k : tout -> M B) (Q : _ -> ow -> Prop) (X : oexn -> ow -> Prop) : A f w vs ts ->
  (forall w', A f w' vs ts -> w_opt w' = w_opt w -> w_objs w' = w_objs w -> wp (k TFine) w' Q X) ->
  (f = false -> forall t s w', A f w' vs ts -> w_opt w' = w_opt w -> w_objs w' = w_objs w -> wp (k (TThrow t s)) w' Q X) ->
  wp (fun w => let '(t, w') := pop w in k t w') w Q X.
Proof.
  intros HA HF HT. unfold wp. destruct (pop w) as [t w1] eqn:Hp.
  destruct (A_pop _ _ _ _ _ _ HA Hp) as (HA1 & Ho & Hc & Hf). destruct t.
  - by apply HF.
  - apply HT; [by apply Hf|done..].
Qed.
Lemma wp_make_fine f w vs ts z (Q : _ -> ow -> Prop) (X : oexn -> ow -> Prop) : A f w vs ts ->
  (forall n w', A f w' vs ((n, z) :: ts) -> w_opt w' = w_opt w -> Q n w') ->
  wp (make z) (OW (TFine :: w_or w) (w_objs w) (w_ev w) (w_opt w)) Q X.
Proof. intros HA HQ. unfold wp, make. cbn. apply HQ; [|done]. by apply (A_new _ _ _ _ z) in HA. Qed.
Lemma wp_move_var f w vs ts i o z (Q : _ -> ow -> Prop) (X : oexn -> ow -> Prop) : A f w vs ts -> w_opt w !! i = Some (Some (Cell true (Some o))) ->
  vs !! i = Some (Some (Some z)) ->
  (forall n w', A f w' (put_var vs i (Some (mv z))) ((n, z) :: ts) -> w_opt w' = w_opt w -> Q n w') ->
  (f = false -> forall s w', A f w' (put_var vs i (Some s)) ts -> w_opt w' = w_opt w -> X XT w') -> wp (make_move mv o) w Q X.
Proof.
  intros HA Hi Hv HQ HX. apply wp_bind. eapply wp_use; [done|by eapply val_of|].
  intros w1 HA1 _ Hc. unfold wp at 1. destruct (pop w1) as [t w2] eqn:Hp.
  destruct (A_pop _ _ _ _ _ _ HA1 Hp) as (HA2 & Ho & Hc2 & Hf). destruct t.
  - apply (wp_bind (make z)). eapply wp_make_fine; [done|]. intros n w3 HA3 Hc3.
    apply wp_bind. eapply (wp_put_var f _ _ _ i); [done|congruence|done|]. intros w4 HA4 Hc4. apply wp_ret. apply HQ; [done|congruence].
  - apply (wp_bind (put o source)). eapply (wp_put_var f _ _ _ i); [done|congruence|done|]. intros w4 HA4 Hc4.
    eapply HX; [by apply Hf|done|congruence].
Qed.
Lemma wp_move_tmp f w vs ts o z (Q : _ -> ow -> Prop) (X : oexn -> ow -> Prop) : A f w vs ((o, z) :: ts) ->
  (forall n w', A f w' vs ((o, mv z) :: (n, z) :: ts) -> w_opt w' = w_opt w -> Q n w') ->
  (f = false -> forall s w', A f w' vs ((o, s) :: ts) -> w_opt w' = w_opt w -> X XT w') -> wp (make_move mv o) w Q X.
Proof.
  intros HA HQ HX. apply wp_bind. eapply wp_use; [done|by eapply val_tmp|].
  intros w1 HA1 _ Hc. unfold wp at 1. destruct (pop w1) as [t w2] eqn:Hp.
  destruct (A_pop _ _ _ _ _ _ HA1 Hp) as (HA2 & Ho & Hc2 & Hf). destruct t.
  - apply (wp_bind (make z)). eapply wp_make_fine; [done|]. intros n w3 HA3 Hc3.
    eapply A_perm in HA3; [|apply Permutation_swap].
    apply wp_bind. eapply (wp_put_tmp f); [done|]. intros w4 HA4 Hc4. apply wp_ret. apply HQ; [done|congruence].
  - apply (wp_bind (put o source)). eapply (wp_put_tmp f); [done|]. intros w4 HA4 Hc4.
    eapply HX; [by apply Hf|done|congruence].
Qed.
Lemma wp_set_val f w vs ts i o z z0 (Q : _ -> ow -> Prop) (X : oexn -> ow -> Prop) : A f w vs ts -> w_opt w !! i = Some (Some (Cell true (Some o))) ->
  vs !! i = Some (Some (Some z0)) ->
  (forall w', A f w' (put_var vs i (Some z)) ts -> w_opt w' = w_opt w -> Q tt w') ->
  (f = false -> forall s w', A f w' (put_var vs i (Some s)) ts -> w_opt w' = w_opt w -> X XT w') -> wp (set_val o z) w Q X.
Proof.
  intros HA Hi Hv HQ HX. apply wp_bind. eapply wp_use; [done|by eapply val_of|].
  intros w1 HA1 _ Hc. unfold wp. destruct (pop w1) as [t w2] eqn:Hp.
  destruct (A_pop _ _ _ _ _ _ HA1 Hp) as (HA2 & Ho & Hc2 & Hf). destruct t.
  - eapply (wp_put_var f _ _ _ i); [done|congruence|done|]. intros w4 HA4 Hc4. apply HQ; [done|congruence].
  - apply (wp_bind (put o target)). eapply (wp_put_var f _ _ _ i); [done|congruence|done|]. intros w4 HA4 Hc4.
    eapply HX; [by apply Hf|done|congruence].
Qed.
Lemma wp_set_move f w vs ts i j d o z z0 (Q : _ -> ow -> Prop) (X : oexn -> ow -> Prop) : A f w vs ts -> w_opt w !! i = Some (Some (Cell true (Some d))) ->
  vs !! i = Some (Some (Some z0)) -> w_opt w !! j = Some (Some (Cell true (Some o))) -> vs !! j = Some (Some (Some z)) ->
  (forall w', A f w' (put_var (put_var vs i (Some z)) j (Some (mv z))) ts -> w_opt w' = w_opt w -> Q tt w') ->
  (f = false -> forall t s w', A f w' (put_var (put_var vs i (Some t)) j (Some s)) ts -> w_opt w' = w_opt w -> X XT w') ->
  wp (set_move mv d o) w Q X.
Proof.
  intros HA Hi Hv Hj Hvj HQ HX.
  assert (Hpj : forall x, exists y, put_var vs i (Some x) !! j = Some (Some (Some y))).
  { intros x. unfold put_var. destruct (decide (i = j)) as [->|]; [|rewrite list_lookup_insert_ne by done; eauto].
    rewrite list_lookup_insert by (by eapply lookup_lt_Some). eauto. }
  apply wp_bind. eapply wp_use; [done|by eapply (val_of f _ _ _ j)|].
  intros w0 HA0 _ Hc0. apply wp_bind. eapply wp_use; [done|eapply (val_of f _ _ _ i); [done|congruence|done]|].
  intros w1 HA1 _ Hc. unfold wp at 1. destruct (pop w1) as [t w2] eqn:Hp.
  destruct (A_pop _ _ _ _ _ _ HA1 Hp) as (HA2 & Ho & Hc2 & Hf). destruct t as [|t s].
  - apply (wp_bind (put d z)). eapply (wp_put_var f _ _ _ i); [done|congruence|done|]. intros w4 HA4 Hc4.
    destruct (Hpj z) as [y Hy].
    eapply (wp_put_var f _ _ _ j); [done|congruence|done|]. intros w5 HA5 Hc5. apply HQ; [done|congruence].
  - apply (wp_bind (put d t)). eapply (wp_put_var f _ _ _ i); [done|congruence|done|]. intros w4 HA4 Hc4.
    destruct (Hpj t) as [y Hy]. apply (wp_bind (put o s)).
    eapply (wp_put_var f _ _ _ j); [done|congruence|done|]. intros w5 HA5 Hc5. eapply HX; [by apply Hf|done|congruence].
Qed.
Lemma wp_set_move_tmp f w vs ts i d o z z0 (Q : _ -> ow -> Prop) (X : oexn -> ow -> Prop) : A f w vs ((o, z) :: ts) -> w_opt w !! i = Some (Some (Cell true (Some d))) ->
  vs !! i = Some (Some (Some z0)) ->
  (forall w', A f w' (put_var vs i (Some z)) ((o, mv z) :: ts) -> w_opt w' = w_opt w -> Q tt w') ->
  (f = false -> forall t s w', A f w' (put_var vs i (Some t)) ((o, s) :: ts) -> w_opt w' = w_opt w -> X XT w') ->
  wp (set_move mv d o) w Q X.
Proof.
  intros HA Hi Hv HQ HX.
  apply wp_bind. eapply wp_use; [done|by eapply (val_tmp f)|].
  intros w0 HA0 _ Hc0. apply wp_bind. eapply wp_use; [done|eapply (val_of f _ _ _ i); [done|congruence|done]|].
  intros w1 HA1 _ Hc. unfold wp at 1. destruct (pop w1) as [t w2] eqn:Hp.
  destruct (A_pop _ _ _ _ _ _ HA1 Hp) as (HA2 & Ho & Hc2 & Hf). destruct t as [|t s].
  - apply (wp_bind (put d z)). eapply (wp_put_var f _ _ _ i); [done|congruence|done|]. intros w4 HA4 Hc4.
    eapply (wp_put_tmp f); [done|]. intros w5 HA5 Hc5. apply HQ; [done|congruence].
  - apply (wp_bind (put d t)). eapply (wp_put_var f _ _ _ i); [done|congruence|done|]. intros w4 HA4 Hc4.
    apply (wp_bind (put o s)).
    eapply (wp_put_tmp f); [done|]. intros w5 HA5 Hc5. eapply HX; [by apply Hf|done|congruence].
Qed.

(** ** Functions on cells *)
Definition crep (w : ow) (i : nat) (c : cell) (x : option Z) : Prop :=
  w_opt w !! i = Some (Some c) /\ match x with None => c = Cell false None | Some _ => exists o, c = Cell true (Some o) end.
Lemma wp_get_cell f w vs ts i x (Q : _ -> ow -> Prop) (X : oexn -> ow -> Prop) : A f w vs ts -> vs !! i = Some (Some x) ->
  (forall c, crep w i c x -> Q c w) -> wp (get_cell i) w Q X.
Proof.
  intros HA Hv HQ. pose proof (cell_of _ _ _ _ _ _ HA Hv) as Hc. unfold wp, get_cell.
  destruct x as [z|]; [destruct Hc as (o & Hc & Ho)|]; rewrite Hc; apply HQ; split; eauto.
Qed.
Lemma get_cell_bad f w vs ts i : A f w vs ts -> (forall x, vs !! i <> Some (Some x)) -> get_cell i w = Bad.
Proof.
  intros HA Hv. unfold get_cell. destruct (w_opt w !! i) as [[c|]|] eqn:E; try done.
  by destruct (cell_none _ _ _ _ _ HA Hv _ E).
Qed.
(** A cell that is about to be stored in variable [i], whose present value is not used any more. *)
Definition fits (f : bool) (w : ow) (i : nat) (c : cell) (vs : ovals) (ts : list (oid * Z)) : Prop :=
  A f (put_cell w i (Some c)) vs ts.
Lemma wp_set_cell f w i c vs ts (Q : unit -> ow -> Prop) X : fits f w i c vs ts ->
  (forall w', A f w' vs ts -> w_opt w' = <[i := Some c]> (w_opt w) -> Q tt w') -> wp (set_cell i (Some c)) w Q X.
Proof. intros Hf HQ. unfold wp, set_cell. by apply HQ. Qed.
Lemma fits_same f w vs ts i c : A f w vs ts -> w_opt w !! i = Some (Some c) -> fits f w i c vs ts.
Proof. intros HA Hi. unfold fits, put_cell. rewrite (list_insert_id _ _ _ Hi). by destruct w. Qed.
Lemma fits_new f w vs ts i o z : A f w vs ((o, z) :: ts) -> vs !! i = Some (Some None) ->
  fits f w i (Cell true (Some o)) (put_var vs i (Some z)) ts.
Proof. apply A_place. Qed.
Lemma put_none (vs : ovals) i x : vs !! i = Some x -> <[i := x]> vs = vs.
Proof. apply list_insert_id. Qed.
Lemma wp_destroy f w vs ts i c x (Q : _ -> ow -> Prop) (X : oexn -> ow -> Prop) : A f w vs ts -> vs !! i = Some (Some x) -> crep w i c x ->
  (forall w', fits f w' i (Cell false None) (put_var vs i None) ts -> w_opt w' = w_opt w -> Q (Cell false None) w') ->
  wp (destroy c) w Q X.
Proof.
  intros HA Hv [Hc Hx] HQ. destruct x as [z|].
  - destruct Hx as [o ->]. unfold wp, destroy, bind; cbn; unfold des. rewrite (val_of _ _ _ _ _ _ _ HA Hc Hv).
    apply HQ; [|done]. by apply (A_des_var f w vs ts i o z true HA Hc), (val_of _ _ _ _ _ _ _ HA Hc Hv).
  - subst c. apply HQ; [|done]. unfold put_var. rewrite (put_none _ _ _ Hv). by apply fits_same.
Qed.
Lemma wp_delete f w vs ts i c x (Q : _ -> ow -> Prop) (X : oexn -> ow -> Prop) : A f w vs ts -> vs !! i = Some (Some x) -> crep w i c x ->
  (forall w', A f w' (<[i := None]> vs) ts -> Q VU w') ->
  wp (destroy c ;;; set_cell i None ;;; ret VU) w Q X.
Proof.
  intros HA Hv [Hc Hx] HQ. destruct x as [z|].
  - destruct Hx as [o ->]. unfold wp, destroy, bind; cbn; unfold des. rewrite (val_of _ _ _ _ _ _ _ HA Hc Hv).
    apply HQ. by apply (A_des_var f w vs ts i o z false HA Hc), (val_of _ _ _ _ _ _ _ HA Hc Hv).
  - subst c. apply HQ. by apply (A_empty_delete f w vs ts i HA).
Qed.

Lemma loose_refl (vs : ovals) i : loose vs i vs. Proof. by left. Qed.
Lemma loose_put (vs : ovals) i z z' : vs !! i = Some (Some (Some z)) -> loose vs i (put_var vs i (Some z')).
Proof. intros H. right. eauto. Qed.
Lemma put_none_id (vs : ovals) i x : vs !! i = Some (Some x) -> put_var vs i x = vs.
Proof. apply list_insert_id. Qed.
Lemma put_put (vs : ovals) i x y : put_var (put_var vs i x) i y = put_var vs i y.
Proof. apply list_insert_insert. Qed.
Lemma put_comm (vs : ovals) i j x y : i <> j -> put_var (put_var vs i x) j y = put_var (put_var vs j y) i x.
Proof. intros. by apply list_insert_commute. Qed.
Lemma put_ne (vs : ovals) i j x : i <> j -> put_var vs i x !! j = vs !! j.
Proof. intros. by apply list_lookup_insert_ne. Qed.

Lemma wp_base_assign f w vs ts i j c r x y (Q : cell -> ow -> Prop) (X : oexn -> ow -> Prop) :
  A f w vs ts -> vs !! i = Some (Some x) -> crep w i c x -> vs !! j = Some (Some y) -> crep w j r y ->
  (forall c' w', fits f w' i c' (put_var vs i y) ts -> w_opt w' = w_opt w -> Q c' w') ->
  (f = false -> forall vs' w', A f w' vs' ts -> loose vs i vs' -> w_opt w' = w_opt w -> X XT w') ->
  wp (base_assign c r) w Q X.
Proof.
  intros HA Hi [Hc Hx] Hj [Hr Hy] HQ HX. unfold base_assign. destruct x as [z0|], y as [z|].
  - destruct Hx as [d ->], Hy as [o ->]. cbn. apply wp_bind, wp_ret, wp_bind, wp_ret, wp_bind, wp_bind.
    eapply wp_use; [done|by eapply (val_of f _ _ _ j)|]. intros w1 HA1 _ Hc1.
    eapply (wp_set_val f _ _ _ i); [done|congruence|done| |].
    + intros w2 HA2 Hc2. apply wp_ret, HQ; [apply fits_same; [done|congruence]|congruence].
    + intros Hf s w2 HA2 Hc2. eapply HX; [done..|by eapply loose_put|congruence].
  - destruct Hx as [d ->]. subst r. cbn. eapply (wp_destroy f _ _ _ i); [done|done|split; [done|by exists d]|].
    intros w' Hf Hw. by apply HQ.
  - subst c. destruct Hy as [o ->]. cbn. apply wp_bind, wp_bind, wp_ret. eapply (wp_copy_var f _ _ _ j); [done..| |].
    + intros n w1 HA1 Hc1. apply wp_ret, HQ; [|done]. by apply fits_new.
    + intros Hf w1 HA1 Hc1. eapply HX; [done..|apply loose_refl|done].
  - subst c r. cbn. apply wp_ret, HQ; [|done]. rewrite put_none_id by done. by apply fits_same.
Qed.
Lemma wp_base_assign_mv f w vs ts i j c r x y (Q : cell -> ow -> Prop) (X : oexn -> ow -> Prop) :
  A f w vs ts -> vs !! i = Some (Some x) -> crep w i c x -> vs !! j = Some (Some y) -> crep w j r y ->
  (forall c' w', fits f w' i c' (put_var (put_var vs i y) j (leave mv true y)) ts -> w_opt w' = w_opt w -> Q c' w') ->
  (f = false -> forall vs1 vs' w', A f w' vs' ts -> loose vs i vs1 -> loose vs1 j vs' -> w_opt w' = w_opt w -> X XT w') ->
  wp (base_assign_mv mv c r) w Q X.
Proof.
  intros HA Hi [Hc Hx] Hj [Hr Hy] HQ HX. unfold base_assign_mv. destruct x as [z0|], y as [z|].
  - destruct Hx as [d ->], Hy as [o ->]. cbn. apply wp_bind, wp_ret, wp_bind, wp_ret, wp_bind.
    eapply (wp_set_move f _ _ _ i j); [done..| |].
    + intros w2 HA2 Hc2. apply wp_ret, HQ; [apply fits_same; [done|congruence]|congruence].
    + intros Hf t s w2 HA2 Hc2. eapply HX; [done..|by eapply loose_put| |congruence].
      destruct (decide (i = j)) as [->|]; eapply loose_put; [by eapply put_at|by rewrite put_ne].
  - destruct Hx as [d ->]. subst r. cbn. eapply (wp_destroy f _ _ _ i); [done|done|split; [done|by exists d]|].
    intros w' Hf Hw. apply HQ; [|done]. cbn. rewrite (put_none_id (put_var vs i None) j); [done|].
    destruct (decide (i = j)) as [->|]; [by simplify_eq|by rewrite put_ne].
  - subst c. destruct Hy as [o ->]. cbn. apply wp_bind, wp_bind, wp_ret.
    assert (i <> j) by (intros ->; by simplify_eq). eapply (wp_move_var f _ _ _ j); [done..| |].
    + intros n w1 HA1 Hc1. apply wp_ret, HQ; [|done]. cbn. rewrite put_comm by done. apply fits_new; [done|]. by rewrite put_ne.
    + intros Hf s w1 HA1 Hc1. eapply HX; [done..|apply loose_refl|by eapply loose_put|done].
  - subst c r. cbn. apply wp_ret, HQ; [|done]. cbn. rewrite !put_none_id by (by rewrite ?put_none_id). by apply fits_same.
Qed.
(** Moving from a temporary optional. *)
Definition trep (r : cell) (y : option Z) (tt : list (oid * Z)) : Prop :=
  match y with None => r = Cell false None /\ tt = [] | Some z => exists o, r = Cell true (Some o) /\ tt = [(o, z)] end.
Lemma wp_base_assign_tmp f w vs i c r x y tt (Q : cell -> ow -> Prop) (X : oexn -> ow -> Prop) :
  A f w vs tt -> vs !! i = Some (Some x) -> crep w i c x -> trep r y tt ->
  (forall c' w' tt', trep r (leave mv true y) tt' -> fits f w' i c' (put_var vs i y) tt' -> w_opt w' = w_opt w -> Q c' w') ->
  (f = false -> is_Some y -> forall y' vs' tt' w', trep r (Some y') tt' -> A f w' vs' tt' -> loose vs i vs' -> w_opt w' = w_opt w -> X XT w') ->
  wp (base_assign_mv mv c r) w Q X.
Proof.
  intros HA Hi [Hc Hx] Hr HQ HX. unfold base_assign_mv. destruct x as [z0|], y as [z|].
  - destruct Hx as [d ->], Hr as (o & -> & ->). cbn. apply wp_bind, wp_ret, wp_bind, wp_ret, wp_bind.
    eapply (wp_set_move_tmp f _ _ _ i); [done..| |].
    + intros w2 HA2 Hc2. apply wp_ret. eapply HQ; [by exists o|apply fits_same; [done|congruence]|congruence].
    + intros Hf t s w2 HA2 Hc2. eapply HX; [done|by eexists|by exists o|done|by eapply loose_put|congruence].
  - destruct Hx as [d ->], Hr as [-> ->]. cbn. eapply (wp_destroy f _ _ _ i); [done|done|split; [done|by exists d]|].
    intros w' Hf Hw. by eapply HQ.
  - subst c. destruct Hr as (o & -> & ->). cbn. apply wp_bind, wp_bind, wp_ret.
    eapply (wp_move_tmp f); [done..| |].
    + intros n w1 HA1 Hc1. apply wp_ret. eapply HQ; [by exists o| |done].
      apply fits_new; [|done]. by eapply A_perm, Permutation_swap.
    + intros Hf s w1 HA1 Hc1. eapply HX; [done|by eexists|by exists o|done|apply loose_refl|done].
  - subst c. destruct Hr as [-> ->]. cbn. apply wp_ret. eapply HQ; [done| |done]. rewrite put_none_id by done. by apply fits_same.
Qed.
Lemma wp_convert f w vs ts j o z (m : bool) (Q : oid -> ow -> Prop) (X : oexn -> ow -> Prop) :
  A f w vs ts -> w_opt w !! j = Some (Some (Cell true (Some o))) -> vs !! j = Some (Some (Some z)) ->
  (forall n w', A f w' (put_var vs j (leave mv m (Some z))) ((n, z) :: ts) -> w_opt w' = w_opt w -> Q n w') ->
  (f = false -> forall vs' w', A f w' vs' ts -> (if m then loose vs j vs' else vs' = vs) -> w_opt w' = w_opt w -> X XT w') ->
  wp (convert mv m o) w Q X.
Proof.
  intros HA Hj Hv HQ HX. destruct m; cbn in *.
  - eapply (wp_move_var f _ _ _ j); [done..|done|]. intros Hf s w' HA' Hc. eapply HX; [done..|by eapply loose_put|done].
  - rewrite put_none_id in HQ by done. eapply (wp_copy_var f _ _ _ j); [done..|done|]. intros Hf w' HA' Hc. by eapply HX.
Qed.
Lemma leave_at (vs : ovals) j (m : bool) z : vs !! j = Some (Some (Some z)) ->
  if m then loose vs j (put_var vs j (leave mv m (Some z))) else put_var vs j (leave mv m (Some z)) = vs.
Proof. intros Hj. destruct m; cbn; [by eapply loose_put|by apply put_none_id]. Qed.
Lemma wp_base_convert f w vs j r y (m : bool) (Q : cell -> ow -> Prop) (X : oexn -> ow -> Prop) :
  A f w vs [] -> vs !! j = Some (Some y) -> crep w j r y ->
  (forall c' w' tt, trep c' y tt -> A f w' (put_var vs j (leave mv m y)) tt -> w_opt w' = w_opt w -> Q c' w') ->
  (f = false -> forall vs' w', A f w' vs' [] -> (if m then loose vs j vs' else vs' = vs) -> w_opt w' = w_opt w -> X XT w') ->
  wp (base_convert mv m r) w Q X.
Proof.
  intros HA Hj [Hr Hy] HQ HX. unfold base_convert. destruct y as [z|].
  - destruct Hy as [o ->]. cbn. apply wp_bind, wp_ret, wp_bind. eapply (wp_convert f _ _ _ j); [done..| |].
    + intros tmp w1 HA1 Hc1. apply wp_finally, wp_bind. eapply (wp_move_tmp f); [done| |].
      * intros n w2 HA2 Hc2. apply wp_ret. eapply (wp_des_tmp f); [done|].
        intros w3 HA3 Hc3. eapply HQ; [by exists n|done|congruence].
      * intros Hf s w2 HA2 Hc2. eapply (wp_des_tmp f); [done|]. intros w3 HA3 Hc3. eapply HX; [done..| |congruence].
        by apply leave_at.
    + intros Hf vs' w1 HA1 Hl Hc1. by eapply HX.
  - subst r. apply wp_ret. eapply HQ; [done| |done]. replace (leave mv m None) with (@None Z) by (by destruct m).
    by rewrite put_none_id.
Qed.
Lemma wp_base_assign_conv f w vs i j c r x y (m : bool) (Q : cell -> ow -> Prop) (X : oexn -> ow -> Prop) :
  A f w vs [] -> vs !! i = Some (Some x) -> crep w i c x -> vs !! j = Some (Some y) -> crep w j r y ->
  (forall c' w', fits f w' i c' (put_var (put_var vs j (leave mv m y)) i y) [] -> w_opt w' = w_opt w -> Q c' w') ->
  (f = false -> forall vs1 vs' w', A f w' vs' [] -> loose vs i vs1 -> (if m then loose vs1 j vs' else vs' = vs1) -> w_opt w' = w_opt w -> X XT w') ->
  wp (base_assign_conv mv m c r) w Q X.
Proof.
  intros HA Hi [Hc Hx] Hj [Hr Hy] HQ HX. unfold base_assign_conv. destruct x as [z0|], y as [z|].
  - destruct Hx as [d ->], Hy as [o ->]. cbn. apply wp_bind, wp_ret, wp_bind.
    eapply (wp_convert f _ _ _ j); [done..| |].
    + intros tmp w1 HA1 Hc1. apply wp_finally, wp_bind, wp_ret, wp_bind.
      assert (exists z1, put_var vs j (leave mv m (Some z)) !! i = Some (Some (Some z1))) as [z1 Hz1].
      { assert (exists q, leave mv m (Some z) = Some q) as [q ->] by (destruct m; cbn; eauto).
        destruct (decide (j = i)) as [->|]; [erewrite put_at by done; eauto|rewrite put_ne by done; eauto]. }
      eapply (wp_set_move_tmp f _ _ _ i); [done|congruence|done| |].
      * intros w2 HA2 Hc2. apply wp_ret. eapply (wp_des_tmp f); [done|]. intros w3 HA3 Hc3.
        apply HQ; [apply fits_same; [done|congruence]|congruence].
      * intros Hf t s w2 HA2 Hc2. eapply (wp_des_tmp f); [done|]. intros w3 HA3 Hc3.
        destruct (decide (i = j)) as [->|Hne].
        -- rewrite put_put in HA3. eapply (HX Hf (put_var vs j (Some t))); [done|by eapply loose_put| |congruence].
           destruct m; [apply loose_refl|done].
        -- rewrite put_comm in HA3 by done.
           eapply (HX Hf (put_var vs i (Some t))); [done|by eapply loose_put| |congruence].
           apply leave_at. by rewrite put_ne.
    + intros Hf vs' w1 HA1 Hl Hc1. eapply (HX Hf vs); [done|apply loose_refl|done|done].
  - destruct Hx as [d ->]. subst r. cbn. eapply (wp_destroy f _ _ _ i); [done|done|split; [done|by exists d]|].
    intros w' Hf Hw. apply HQ; [|done]. replace (leave mv m None) with (@None Z) by (by destruct m).
    by rewrite (put_none_id vs j).
  - subst c. destruct Hy as [o ->]. cbn. apply wp_bind, wp_ret, wp_bind.
    assert (i <> j) by (intros ->; by simplify_eq).
    eapply (wp_convert f _ _ _ j); [done..| |].
    + intros tmp w1 HA1 Hc1. apply wp_finally, wp_bind. eapply (wp_move_tmp f); [done| |].
      * intros n w2 HA2 Hc2. apply wp_ret. eapply (wp_des_tmp f); [done|].
        intros w3 HA3 Hc3. eapply HQ; [|congruence]. apply fits_new; [done|]. by rewrite put_ne.
      * intros Hf s w2 HA2 Hc2. eapply (wp_des_tmp f); [done|]. intros w3 HA3 Hc3.
        eapply (HX Hf vs); [done|apply loose_refl| |congruence]. by apply leave_at.
    + intros Hf vs' w1 HA1 Hl Hc1. eapply (HX Hf vs); [done|apply loose_refl|done|done].
  - subst c r. cbn. apply wp_ret, HQ; [|done]. replace (leave mv m None) with (@None Z) by (by destruct m).
    rewrite (put_none_id vs j), (put_none_id vs i) by done. by apply fits_same.
Qed.
Lemma wp_base_move f w vs j r y (Q : cell -> ow -> Prop) (X : oexn -> ow -> Prop) :
  A f w vs [] -> vs !! j = Some (Some y) -> crep w j r y ->
  (forall c' w' tt, trep c' y tt -> A f w' (put_var vs j (leave mv true y)) tt -> w_opt w' = w_opt w -> Q c' w') ->
  (f = false -> forall vs' w', A f w' vs' [] -> loose vs j vs' -> w_opt w' = w_opt w -> X XT w') ->
  wp (base_move mv r) w Q X.
Proof.
  intros HA Hj [Hr Hy] HQ HX. unfold base_move. destruct y as [z|].
  - destruct Hy as [o ->]. cbn. apply wp_bind, wp_bind, wp_ret. eapply (wp_move_var f _ _ _ j); [done..| |].
    + intros n w1 HA1 Hc1. apply wp_ret. eapply HQ; [by exists n|done|done].
    + intros Hf s w1 HA1 Hc1. eapply HX; [done..|by eapply loose_put|done].
  - subst r. apply wp_ret. eapply HQ; [done| |done]. cbn. by rewrite put_none_id.
Qed.
Lemma wp_base_copy f w vs j r y (Q : cell -> ow -> Prop) (X : oexn -> ow -> Prop) :
  A f w vs [] -> vs !! j = Some (Some y) -> crep w j r y ->
  (forall c' w' tt, trep c' y tt -> A f w' vs tt -> w_opt w' = w_opt w -> Q c' w') ->
  (f = false -> forall w', A f w' vs [] -> w_opt w' = w_opt w -> X XT w') ->
  wp (base_copy r) w Q X.
Proof.
  intros HA Hj [Hr Hy] HQ HX. unfold base_copy. destruct y as [z|].
  - destruct Hy as [o ->]. cbn. apply wp_bind, wp_bind, wp_ret. eapply (wp_copy_var f _ _ _ j); [done..| |].
    + intros n w1 HA1 Hc1. apply wp_ret. eapply HQ; [by exists n|done|done].
    + intros Hf w1 HA1 Hc1. by eapply HX.
  - subst r. apply wp_ret. by eapply HQ.
Qed.
Lemma wp_base_value f w vs (b : bool) z (Q : cell -> ow -> Prop) (X : oexn -> ow -> Prop) :
  A f w vs [] ->
  (forall c' w' tt, trep c' (if b then Some z else None) tt -> A f w' vs tt -> Q c' w') ->
  (f = false -> forall w', A f w' vs [] -> X XT w') ->
  wp (base_value b z) w Q X.
Proof.
  intros HA HQ HX. unfold base_value. destruct b.
  - apply wp_bind. eapply wp_make; [done| |].
    + intros n w1 HA1 Hc1. apply wp_ret. eapply HQ; [by exists n|done].
    + intros Hf w1 HA1 Hc1. by eapply HX.
  - apply wp_ret. by eapply HQ.
Qed.
Lemma wp_new f w vs c y tt (Q : oval -> ow -> Prop) (X : oexn -> ow -> Prop) :
  A f w vs tt -> trep c y tt ->
  (forall w', A f w' (vs ++ [Some y]) [] -> Q (VI (length vs)) w') ->
  wp (i <-- new_cell c ;; ret (VI i)) w Q X.
Proof.
  intros HA Hr HQ. unfold wp, bind, new_cell, ret. rewrite (A_len _ _ _ _ HA). apply HQ. destruct y as [z|].
  - destruct Hr as (o & -> & ->). by apply A_push_some.
  - destruct Hr as [-> ->]. by apply A_push_none.
Qed.

(** ** Every operation *)
Definition okp (f : bool) (vs : ovals) (op : oop) (v : oval) (w' : ow) : Prop :=
  exists vs', ospec mv vs op = AVal v vs' /\ A f w' vs' [].
Definition thp (f : bool) (vs : ovals) (op : oop) (x : oexn) (w' : ow) : Prop :=
  match x with
  | XT => (f = false \/ exists i, op = OEmplaceX i) /\ exists vs', ospec_throw vs op vs' /\ A f w' vs' []
  | XAccess => ospec mv vs op = AAccess /\ A f w' vs []
  end.
Definition stp (f : bool) (w : ow) (vs : ovals) (op : oop) : Prop :=
  match oexec mv op w with Ok v w' => okp f vs op v w' | Throw x w' => thp f vs op x w' | Bad => ospec mv vs op = AUndef end.
Lemma stp_wp f w vs op : wp (oexec mv op) w (okp f vs op) (thp f vs op) -> stp f w vs op.
Proof. unfold wp, stp. by destruct (oexec mv op w). Qed.
Lemma bind_bad {B C} (m : M B) (k : B -> M C) w : m w = Bad -> bind m k w = Bad.
Proof. intros H. unfold bind. by rewrite H. Qed.

Lemma bind_get_bad {C} j (k : cell -> M C) w : (forall r, k r w = Bad) -> bind (get_cell j) k w = Bad.
Proof. intros H. unfold bind, get_cell. destruct (w_opt w !! j) as [[c|]|]; auto. Qed.


Lemma loose_trans (vs vs1 vs2 : ovals) i : loose vs i vs1 -> loose vs1 i vs2 -> loose vs i vs2.
Proof.
  intros [->|(z & z' & Hz & ->)]; [done|]. intros [->|(a & b & Hb & ->)]; [by eapply loose_put|].
  rewrite put_put. by eapply loose_put.
Qed.
Lemma loose_leave (vs : ovals) i x : vs !! i = Some (Some x) -> loose vs i (put_var vs i (leave mv true x)).
Proof. intros H. destruct x as [z|]; cbn; [by eapply loose_put|]. rewrite put_none_id by done. apply loose_refl. Qed.

Lemma swap_ok f w vs i j x y : A f w vs [] -> vs !! i = Some (Some x) -> vs !! j = Some (Some y) ->
  wp (swap mv i j) w (okp f vs (OSwap i j)) (thp f vs (OSwap i j)).
Proof.
  intros HA Hi Hj. unfold swap.
  apply wp_bind; eapply (wp_get_cell f _ _ _ i); [done|done|]; intros a Ha.
  apply wp_bind; eapply (wp_get_cell f _ _ _ j); [done|done|]; intros b Hb. apply wp_bind.
  eapply wp_base_move; [done|exact Hi|done| |].
  2:{ intros Hf vs' w' HA' Hl Hw. split; [by left|]. exists vs'. split; [|done]. left. exists vs'. split; [done|apply loose_refl]. }
  intros tmp w1 tl Ht HA1 Hw1. set (vs1 := put_var vs i (leave mv true x)) in *.
  assert (Hi1 : vs1 !! i = Some (Some (leave mv true x))) by (by eapply put_at).
  assert (exists y1, vs1 !! j = Some (Some y1) /\ (i <> j -> y1 = y) /\ (i = j -> y1 = leave mv true x)) as (y1 & Hj1 & Hne & Heq).
  { destruct (decide (i = j)) as [->|]; [exists (leave mv true x)|exists y; unfold vs1; rewrite put_ne by done]; done. }
  assert (Hdes : forall (R : ow -> Prop) (w' : ow) (vs' : ovals) y' tl', trep tmp y' tl' -> A f w' vs' tl' -> (forall w'', A f w'' vs' [] -> R w'') ->
     forall X, wp (destroy tmp ;;; ret tt) w' (fun _ => R) X).
  { intros R w' vs' y' tl' Hr HA' HR X. apply wp_bind. destruct y' as [z|]; cbn in Hr.
    - destruct Hr as (o & -> & ->). unfold destroy. cbn. apply wp_bind, wp_ret, wp_bind. eapply (wp_des_tmp f); [done|].
      intros w'' HA'' _. by apply wp_ret, wp_ret, HR.
    - destruct Hr as [-> ->]. by apply wp_ret, wp_ret, HR. }
  apply wp_finally.
  apply wp_bind; eapply (wp_get_cell f _ _ _ i); [done|done|]; intros a1 Ha1.
  apply wp_bind; eapply (wp_get_cell f _ _ _ j); [done|done|]; intros b1 Hb1. apply wp_bind.
  eapply (wp_base_assign_mv f _ vs1 _ i j); [done..| |].
  2:{ intros Hf v1 vs' w' HA' Hl1 Hl2 Hw. eapply Hdes; [done|done|]. intros w'' HA''. split; [by left|]. exists vs'. split; [|done].
      left. exists v1. split; [|done]. eapply loose_trans; [|done]. by apply loose_leave. }
  intros a2 w2 Hfit Hw2. apply wp_bind. eapply wp_set_cell; [done|]. intros w3 HA3 Hw3.
  set (vs2 := put_var (put_var vs1 i y1) j (leave mv true y1)) in *.
  assert (Hj2 : vs2 !! j = Some (Some (leave mv true y1))).
  { apply list_lookup_insert. unfold put_var. rewrite insert_length. by eapply lookup_lt_Some. }
  apply wp_bind; eapply (wp_get_cell f _ _ _ j); [done|done|]; intros b3 Hb3. apply wp_bind.
  eapply (wp_base_assign_tmp f); [done..| |].
  - intros b4 w4 tl' Htr Hfit4 Hw4. apply wp_bind. eapply wp_set_cell; [done|]. intros w5 HA5 Hw5. apply wp_ret.
    eapply Hdes; [done|done|]. intros w6 HA6. eexists. split; [cbn; unfold at_var; by rewrite Hi, Hj|].
    assert (put_var vs2 j x = put_var (put_var vs i y) j x) as <-; [|done].
    unfold vs2, vs1. rewrite !put_put. destruct (decide (i = j)) as [->|Hn]; [by rewrite !put_put|by rewrite Hne].
  - intros Hf [z ->] y' vs' tl' w' Htr HA' Hl Hw'. eapply Hdes; [done|done|]. intros w'' HA''. split; [by left|]. exists vs'. split; [|done].
    destruct y1 as [q|].
    + left. exists (put_var vs i (Some q)). split; [by eapply loose_put|]. eapply loose_trans; [|done].
      unfold vs2, vs1. rewrite put_put. eapply loose_put. destruct (decide (i = j)) as [->|Hn]; [by eapply put_at|].
      rewrite put_ne by done. rewrite <- (Hne Hn) in Hj. exact Hj.
    + right. assert (Hn : i <> j) by (intros Hn; specialize (Heq Hn); done). rewrite <- (Hne Hn) in Hj.
      split; [eauto|]. split; [done|]. destruct Hl as [->|(? & ? & Hbad & _)]; [|by rewrite Hj2 in Hbad].
      unfold vs2, vs1. cbn. rewrite put_put. rewrite (put_none_id (put_var vs i None)); [done|]. by rewrite put_ne.
Qed.

Lemma returned_ok f w vs o z v (Q : oval -> ow -> Prop) (X : oexn -> ow -> Prop) :
  A f w vs [(o, z)] -> v = VZ z -> (forall w', A f w' vs [] -> Q v w') ->
  wp (z <-- use o ;; des o ;;; ret (VZ z)) w Q X.
Proof.
  intros HA -> HQ. apply wp_bind. eapply wp_use; [done|by eapply (val_tmp f)|]. intros w1 HA1 _ _.
  apply wp_bind. eapply (wp_des_tmp f); [done|]. intros w2 HA2 _. by apply wp_ret, HQ.
Qed.

Ltac spec := cbn; unfold at_var; repeat match goal with H : _ !! _ = _ |- _ => rewrite H end; try reflexivity.
Ltac okd := eexists; split; [spec|try eassumption].
Ltac thd := split; [by left|]; eexists; split; [|eassumption]; cbn.
Ltac undef i H :=
  match goal with HA : A ?f _ _ _ |- _ =>
    let E := fresh in
    unfold stp; cbn [oexec]; unfold upd, emplace, emplace_x, swap; rewrite (bind_bad (get_cell i)) by (eapply (get_cell_bad f); [exact HA|intros ? E; rewrite H in E; discriminate]);
    cbn; unfold at_var; rewrite H; reflexivity
  end.
Ltac getcell i := match goal with HA : A ?f _ _ _ |- _ => apply wp_bind; eapply (wp_get_cell f _ _ _ i); [eassumption|eassumption|] end.

Theorem op_ok f w vs op : A f w vs [] -> stp f w vs op.
Proof.
  intros HA. destruct op as [|z|b z|z|b z|j|j|m j|i|i j|i j|m i j|i z|i|i z|i|i|i j|i|i|i z|i|i|i|i z|i z|i z|i].
  - (* ONew *) apply stp_wp. cbn [oexec]. apply wp_bind, wp_ret. eapply (wp_new f _ _ _ None []); [done|done|]. intros w' HA'. okd.
  - (* ONewVal *) apply stp_wp. cbn [oexec]. apply wp_bind. eapply wp_base_value; [done| |].
    + intros c w1 tl Hr HA1. eapply wp_new; [done..|]. intros w' HA'. okd.
    + intros Hf w1 HA1. thd. done.
  - (* ONewIf *) apply stp_wp. cbn [oexec]. apply wp_bind. eapply wp_base_value; [done| |].
    + intros c w1 tl Hr HA1. eapply wp_new; [done..|]. intros w' HA'. okd.
    + intros Hf w1 HA1. thd. done.
  - (* ONewInPlace *) apply stp_wp. cbn [oexec]. apply wp_bind. eapply wp_base_value; [done| |].
    + intros c w1 tl Hr HA1. eapply wp_new; [done..|]. intros w' HA'. okd.
    + intros Hf w1 HA1. thd. done.
  - (* ONewInPlaceIf *) apply stp_wp. cbn [oexec]. apply wp_bind. eapply wp_base_value; [done| |].
    + intros c w1 tl Hr HA1. eapply wp_new; [done..|]. intros w' HA'. okd.
    + intros Hf w1 HA1. thd. done.
  - (* ONewCopy *) destruct (vs !! j) as [[y|]|] eqn:Hj; [|undef j Hj..]. apply stp_wp. cbn [oexec].
    getcell j. intros r Hr. apply wp_bind. eapply wp_base_copy; [done..| |].
    + intros c w1 tl Hc HA1 _. eapply wp_new; [done..|]. intros w' HA'. okd.
    + intros Hf w1 HA1 _. thd. done.
  - (* ONewMove *) destruct (vs !! j) as [[y|]|] eqn:Hj; [|undef j Hj..]. apply stp_wp. cbn [oexec].
    getcell j. intros r Hr. apply wp_bind. eapply wp_base_move; [done..| |].
    + intros c w1 tl Hc HA1 _. eapply wp_new; [done..|]. intros w' HA'. eexists; split; [|eassumption]. spec; unfold add_var, put_var; by rewrite insert_length.
    + intros Hf vs' w1 HA1 Hl _. thd. done.
  - (* ONewConv *) destruct (vs !! j) as [[y|]|] eqn:Hj; [|undef j Hj..]. apply stp_wp. cbn [oexec].
    getcell j. intros r Hr. apply wp_bind. eapply wp_base_convert; [done..| |].
    + intros c w1 tl Hc HA1 _. eapply wp_new; [done..|]. intros w' HA'. eexists; split; [|eassumption]. spec; unfold add_var, put_var; by rewrite insert_length.
    + intros Hf vs' w1 HA1 Hl _. thd. by destruct m.
  - (* ODelete *) destruct (vs !! i) as [[x|]|] eqn:Hi; [|undef i Hi..]. apply stp_wp. cbn [oexec].
    getcell i. intros c Hc. eapply (wp_delete f _ _ _ i); [done..|]. intros w' HA'. okd.
  - (* OAssign *) destruct (vs !! j) as [[y|]|] eqn:Hj; [|undef j Hj..].
    destruct (vs !! i) as [[x|]|] eqn:Hi.
    all: try solve [unfold stp; cbn [oexec]; unfold upd; rewrite (bind_get_bad j) by (intros r; apply bind_bad; eapply (get_cell_bad f); [exact HA|intros ? E; rewrite Hi in E; discriminate]); spec].
    apply stp_wp. cbn [oexec]. getcell j. intros r Hr. getcell i. intros c Hc. apply wp_bind. eapply (wp_base_assign f _ _ _ i j); [done..| |].
    + intros c' w1 Hfit _. apply wp_bind. eapply wp_set_cell; [done|]. intros w2 HA2 _. apply wp_ret. okd.
    + intros Hf vs' w1 HA1 Hl _. thd. done.
  - (* OAssignMove *) destruct (vs !! j) as [[y|]|] eqn:Hj; [|undef j Hj..].
    destruct (vs !! i) as [[x|]|] eqn:Hi.
    all: try solve [unfold stp; cbn [oexec]; unfold upd; rewrite (bind_get_bad j) by (intros r; apply bind_bad; eapply (get_cell_bad f); [exact HA|intros ? E; rewrite Hi in E; discriminate]); spec].
    apply stp_wp. cbn [oexec]. getcell j. intros r Hr. getcell i. intros c Hc. apply wp_bind. eapply (wp_base_assign_mv f _ _ _ i j); [done..| |].
    + intros c' w1 Hfit _. apply wp_bind. eapply wp_set_cell; [done|]. intros w2 HA2 _. apply wp_ret. okd.
    + intros Hf v1 vs' w1 HA1 Hl1 Hl2 _. thd. eauto.
  - (* OAssignConv *) destruct (vs !! j) as [[y|]|] eqn:Hj; [|undef j Hj..].
    destruct (vs !! i) as [[x|]|] eqn:Hi.
    all: try solve [unfold stp; cbn [oexec]; unfold upd; rewrite (bind_get_bad j) by (intros r; apply bind_bad; eapply (get_cell_bad f); [exact HA|intros ? E; rewrite Hi in E; discriminate]); spec].
    apply stp_wp. cbn [oexec]. getcell j. intros r Hr. getcell i. intros c Hc. apply wp_bind. eapply (wp_base_assign_conv f _ _ i j); [done..| |].
    + intros c' w1 Hfit _. apply wp_bind. eapply wp_set_cell; [done|]. intros w2 HA2 _. apply wp_ret. okd.
    + intros Hf v1 vs' w1 HA1 Hl1 Hl2 _. thd. destruct m; [eauto|by subst].
  - (* OAssignVal *) destruct (vs !! i) as [[x|]|] eqn:Hi; [|undef i Hi..]. apply stp_wp. cbn [oexec].
    getcell i. intros c Hc. apply wp_bind. unfold base_assign_val. destruct Hc as [Hc Hx]. destruct x as [z0|].
    + destruct Hx as [o ->]. cbn. apply wp_bind, wp_ret, wp_bind. eapply (wp_set_val f _ _ _ i); [done..| |].
      * intros w1 HA1 Hw1. apply wp_ret, wp_bind. eapply wp_set_cell; [apply fits_same; [done|by rewrite Hw1]|]. intros w2 HA2 _. apply wp_ret. okd.
      * intros Hf s w1 HA1 _. thd. by eapply loose_put.
    + subst c. cbn. apply wp_bind. eapply wp_make; [done| |].
      * intros n w1 HA1 Hw1. apply wp_ret, wp_bind. eapply wp_set_cell; [by apply fits_new|]. intros w2 HA2 _. apply wp_ret. okd.
      * intros Hf w1 HA1 _. thd. apply loose_refl.
  - (* OAssignNone *) destruct (vs !! i) as [[x|]|] eqn:Hi; [|undef i Hi..]. apply stp_wp. cbn [oexec].
    getcell i. intros c Hc. apply wp_bind. eapply (wp_destroy f _ _ _ i); [done..|]. intros w1 Hfit _. apply wp_bind.
    eapply wp_set_cell; [done|]. intros w2 HA2 _. apply wp_ret. okd.
  - (* OEmplace *) destruct (vs !! i) as [[x|]|] eqn:Hi; [|undef i Hi..]. apply stp_wp. cbn [oexec].
    getcell i. intros c Hc. apply wp_bind. eapply (wp_destroy f _ _ _ i); [done..|]. intros w1 Hfit _. apply wp_bind.
    eapply wp_set_cell; [done|]. intros w2 HA2 _. apply wp_bind, wp_bind. eapply wp_make; [done| |].
    + intros n w3 HA3 _. apply wp_ret, wp_bind. eapply wp_set_cell; [apply fits_new; [done|by eapply put_at]|]. intros w4 HA4 _.
      rewrite put_put in HA4. apply wp_ret. okd.
    + intros Hf w3 HA3 _. thd. done.
  - (* OEmplaceX *) destruct (vs !! i) as [[x|]|] eqn:Hi; [|undef i Hi..]. apply stp_wp. cbn [oexec].
    getcell i. intros c Hc. apply wp_bind. eapply (wp_destroy f _ _ _ i); [done..|]. intros w1 Hfit _. apply wp_bind.
    eapply wp_set_cell; [done|]. intros w2 HA2 _. split; [right; eauto|]. eexists; split; [|eassumption]. done.
  - (* OReset *) destruct (vs !! i) as [[x|]|] eqn:Hi; [|undef i Hi..]. apply stp_wp. cbn [oexec].
    getcell i. intros c Hc. apply wp_bind. eapply (wp_destroy f _ _ _ i); [done..|]. intros w1 Hfit _. apply wp_bind.
    eapply wp_set_cell; [done|]. intros w2 HA2 _. apply wp_ret. okd.
  - (* OSwap *) destruct (vs !! i) as [[x|]|] eqn:Hi; [|undef i Hi..].
    destruct (vs !! j) as [[y|]|] eqn:Hj.
    all: try solve [unfold stp; cbn [oexec]; unfold swap; rewrite (bind_get_bad i) by (intros r; apply bind_bad; eapply (get_cell_bad f); [exact HA|intros ? E; rewrite Hj in E; discriminate]); spec].
    apply stp_wp. by eapply swap_ok.
  - (* OHas *) destruct (vs !! i) as [[x|]|] eqn:Hi; [|undef i Hi..]. apply stp_wp. cbn [oexec].
    getcell i. intros c [Hc Hx]. apply wp_ret. eexists; split; [|eassumption]. spec; by destruct x as [z|]; [destruct Hx as [o ->]|subst c].
  - (* OGet *) destruct (vs !! i) as [[x|]|] eqn:Hi; [|undef i Hi..]. destruct x as [z|].
    + apply stp_wp. cbn [oexec]. getcell i. intros c [Hc [o ->]]. cbn. apply wp_bind, wp_ret, wp_bind.
      eapply wp_use; [done|by eapply (val_of f)|]. intros w1 HA1 _ _. apply wp_ret. okd.
    + unfold stp. cbn [oexec]. pose proof (cell_of _ _ _ _ _ _ HA Hi) as Hc. unfold bind at 1, get_cell. rewrite Hc. spec.
  - (* OSet *) destruct (vs !! i) as [[x|]|] eqn:Hi; [|undef i Hi..]. destruct x as [z0|].
    + apply stp_wp. cbn [oexec]. getcell i. intros c [Hc [o ->]]. cbn. apply wp_bind, wp_ret, wp_bind.
      eapply (wp_set_val f _ _ _ i); [done..| |].
      * intros w1 HA1 _. apply wp_ret. okd.
      * intros Hf s w1 HA1 _. thd. by eapply loose_put.
    + unfold stp. cbn [oexec]. pose proof (cell_of _ _ _ _ _ _ HA Hi) as Hc. unfold bind at 1, get_cell. rewrite Hc. spec.
  - (* OTake *) destruct (vs !! i) as [[x|]|] eqn:Hi; [|undef i Hi..]. destruct x as [z|].
    + apply stp_wp. cbn [oexec]. getcell i. intros c [Hc [o ->]]. cbn. apply wp_bind, wp_bind, wp_ret.
      eapply (wp_move_var f _ _ _ i); [done..| |].
      * intros n w1 HA1 _. eapply returned_ok; [done..|]. intros w2 HA2. okd.
      * intros Hf s w1 HA1 _. thd. by eapply loose_put.
    + unfold stp. cbn [oexec]. pose proof (cell_of _ _ _ _ _ _ HA Hi) as Hc. unfold bind at 1, get_cell. rewrite Hc. spec.
  - (* OValue *) destruct (vs !! i) as [[x|]|] eqn:Hi; [|undef i Hi..]. destruct x as [z|].
    + apply stp_wp. cbn [oexec]. getcell i. intros c [Hc [o ->]]. cbn. apply wp_bind, wp_ret, wp_bind.
      eapply wp_use; [done|by eapply (val_of f)|]. intros w1 HA1 _ _. apply wp_ret. okd.
    + unfold stp. cbn [oexec]. pose proof (cell_of _ _ _ _ _ _ HA Hi) as Hc. unfold bind at 1, get_cell. rewrite Hc. cbn. split; [spec|done].
  - (* OTakeValue *) destruct (vs !! i) as [[x|]|] eqn:Hi; [|undef i Hi..]. destruct x as [z|].
    + apply stp_wp. cbn [oexec]. getcell i. intros c [Hc [o ->]]. cbn. apply wp_bind, wp_bind, wp_ret.
      eapply (wp_move_var f _ _ _ i); [done..| |].
      * intros n w1 HA1 _. eapply returned_ok; [done..|]. intros w2 HA2. okd.
      * intros Hf s w1 HA1 _. thd. by eapply loose_put.
    + unfold stp. cbn [oexec]. pose proof (cell_of _ _ _ _ _ _ HA Hi) as Hc. unfold bind at 1, get_cell. rewrite Hc. cbn. split; [spec|done].
  - (* OValueOr *) destruct (vs !! i) as [[x|]|] eqn:Hi; [|undef i Hi..]. apply stp_wp. cbn [oexec]. getcell i. intros c [Hc Hx].
    apply wp_bind. destruct x as [z'|].
    + destruct Hx as [o ->]. cbn. apply wp_bind, wp_ret. eapply (wp_copy_var f _ _ _ i); [done..| |].
      * intros n w1 HA1 _. eapply returned_ok; [done..|]. intros w2 HA2. okd.
      * intros Hf w1 HA1 _. thd. done.
    + subst c. cbn. eapply wp_make; [done| |].
      * intros n w1 HA1 _. eapply returned_ok; [done..|]. intros w2 HA2. okd.
      * intros Hf w1 HA1 _. thd. done.
  - (* OTakeValueOr *) destruct (vs !! i) as [[x|]|] eqn:Hi; [|undef i Hi..]. apply stp_wp. cbn [oexec]. getcell i. intros c [Hc Hx].
    apply wp_bind. destruct x as [z'|].
    + destruct Hx as [o ->]. cbn. apply wp_bind, wp_ret. eapply (wp_move_var f _ _ _ i); [done..| |].
      * intros n w1 HA1 _. eapply returned_ok; [done..|]. intros w2 HA2. okd.
      * intros Hf s w1 HA1 _. thd. by eapply loose_put.
    + subst c. cbn. eapply wp_make; [done| |].
      * intros n w1 HA1 _. eapply returned_ok; [done..|]. intros w2 HA2. okd.
      * intros Hf w1 HA1 _. thd. apply loose_refl.
  - (* OGetValueOr *) destruct (vs !! i) as [[x|]|] eqn:Hi; [|undef i Hi..]. apply stp_wp. cbn [oexec]. getcell i. intros c [Hc Hx].
    destruct x as [z'|].
    + destruct Hx as [o ->]. cbn. apply wp_bind, wp_ret, wp_bind.
      eapply wp_use; [done|by eapply (val_of f)|]. intros w1 HA1 _ _. apply wp_ret. okd.
    + subst c. cbn. apply wp_ret. okd.
  - (* OPtr *) destruct (vs !! i) as [[x|]|] eqn:Hi; [|undef i Hi..]. apply stp_wp. cbn [oexec].
    getcell i. intros c [Hc Hx]. apply wp_ret. eexists; split; [|eassumption]. spec; by destruct x as [z|]; [destruct Hx as [o ->]|subst c].
Qed.
End P.
