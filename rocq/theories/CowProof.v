(** * Proofs about cow_ptr *)
From Verif Require Export CowSpec.

Lemma owns_spec a x : Is_true (owns a x) <-> x = Some (Some a).
Proof.
  destruct x as [[b|]|]; cbn; try (split; [done|intros; congruence]).
  destruct (Nat.eqb_spec a b); cbn; split; intros; try done; congruence.
Qed.

Lemma count_zero c a : count c a = 0 <-> forall i, cw_vars c !! i <> Some (Some (Some a)).
Proof.
  unfold count. split.
  - intros H i Hi. apply nil_length_inv in H.
    assert (Some (Some a) ∈ filter (fun x => Is_true (owns a x)) (cw_vars c)) as Hin
      by (apply elem_of_list_filter; split; [apply owns_spec; auto|eapply elem_of_list_lookup_2; eauto]).
    rewrite H in Hin. inversion Hin.
  - intros H. destruct (filter _ _) as [|x xs] eqn:Hf; [reflexivity|exfalso].
    assert (x ∈ filter (fun x => Is_true (owns a x)) (cw_vars c)) as Hin by (rewrite Hf; apply elem_of_list_here).
    apply elem_of_list_filter in Hin as [Ho Hin]. apply owns_spec in Ho as ->. apply elem_of_list_lookup in Hin as [i Hi].
    eapply H; eauto.
Qed.

Lemma count_pos c a : 0 < count c a <-> alive c a.
Proof.
  unfold alive. destruct (decide (count c a = 0)) as [Hz|Hz].
  - split; [lia|]. intros [i Hi]. apply (count_zero c a) with (i := i) in Hz. congruence.
  - split; [intros _|lia]. unfold count in Hz.
    destruct (filter _ _) as [|x xs] eqn:Hf; [cbn in Hz; congruence|].
    assert (x ∈ filter (fun x => Is_true (owns a x)) (cw_vars c)) as Hin by (rewrite Hf; apply elem_of_list_here).
    apply elem_of_list_filter in Hin as [Ho Hin]. apply owns_spec in Ho as ->. apply elem_of_list_lookup in Hin as [i Hi]. eauto.
Qed.

Lemma filter_one_or_two {A} (P : A -> Prop) `{!forall x, Decision (P x)} (xs : list A) :
  1 < length (filter P xs) <-> exists i j x y, i <> j /\ xs !! i = Some x /\ xs !! j = Some y /\ P x /\ P y.
Proof.
  induction xs as [|z xs IH]; [cbn; split; [lia|intros (i & ? & ? & ? & ? & Hi & _); destruct i; discriminate]|].
  assert (0 < length (filter P xs) <-> exists j y, xs !! j = Some y /\ P y) as H1.
  { split.
    - destruct (filter P xs) as [|y ys] eqn:Hf; cbn; [lia|]. intros _.
      assert (y ∈ filter P xs) as Hin by (rewrite Hf; apply elem_of_list_here).
      apply elem_of_list_filter in Hin as [? [j ?]%elem_of_list_lookup]. eauto.
    - intros (j & y & Hj & Hy). assert (y ∈ filter P xs) as Hin by (apply elem_of_list_filter; split; [auto|eapply elem_of_list_lookup_2; eauto]).
      destruct (filter P xs); [inversion Hin|cbn; lia]. }
  rewrite filter_cons. destruct (decide (P z)) as [Hz|Hz]; cbn [length].
  - split.
    + intros Hl. assert (0 < length (filter P xs)) as Hp by lia. apply H1 in Hp as (j & y & Hj & Hy).
      exists 0, (S j), z, y. repeat split; auto.
    + intros (i & j & x & y & Hn & Hi & Hj & Hx & Hy). assert (0 < length (filter P xs)); [|lia]. apply H1.
      destruct i as [|i]; [destruct j as [|j]; [congruence|cbn in Hj; eauto]|cbn in Hi; eauto].
  - rewrite IH. split.
    + intros (i & j & x & y & Hn & Hi & Hj & Hx & Hy). exists (S i), (S j), x, y. repeat split; auto.
    + intros (i & j & x & y & Hn & Hi & Hj & Hx & Hy). destruct i as [|i]; [cbn in Hi; simplify_eq; contradiction|].
      destruct j as [|j]; [cbn in Hj; simplify_eq; contradiction|]. cbn in *. exists i, j, x, y. repeat split; auto.
Qed.

Lemma count_shared c a : 1 < count c a <-> exists i j, i <> j /\ cw_vars c !! i = Some (Some (Some a)) /\ cw_vars c !! j = Some (Some (Some a)).
Proof.
  unfold count. rewrite filter_one_or_two. split.
  - intros (i & j & x & y & Hn & Hi & Hj & Hx & Hy). apply owns_spec in Hx, Hy. subst. eauto.
  - intros (i & j & Hn & Hi & Hj). exists i, j, (Some (Some a)), (Some (Some a)). repeat split; auto; apply owns_spec; auto.
Qed.

(** ** Invariant: variables point into memory *)
Definition cok (c : cow) : Prop := forall i a, cw_vars c !! i = Some (Some (Some a)) -> a < length (cw_mem c).

Lemma get_var_Some c i p : get_var c i = Some p <-> cw_vars c !! i = Some (Some p).
Proof. unfold get_var. destruct (cw_vars c !! i) as [[]|]; split; congruence. Qed.

(** Case analysis of a step, with the access functions resolved. *)
Inductive ctrans (c : cow) : cop -> cout -> cow -> Prop :=
| CT_default : ctrans c CDefault (CNew (length (cw_vars c))) (Cow (cw_mem c) (cw_vars c ++ [Some None]))
| CT_make z : ctrans c (CMake z) (CNew (length (cw_vars c))) (Cow (cw_mem c ++ [z]) (cw_vars c ++ [Some (Some (length (cw_mem c)))]))
| CT_copy i p : cw_vars c !! i = Some (Some p) -> ctrans c (CCopy i) (CNew (length (cw_vars c))) (Cow (cw_mem c) (cw_vars c ++ [Some p]))
| CT_move i p : cw_vars c !! i = Some (Some p) ->
    ctrans c (CMove i) (CNew (length (cw_vars c))) (Cow (cw_mem c) (<[i := Some None]> (cw_vars c) ++ [Some p]))
| CT_assign i j p q : cw_vars c !! i = Some (Some p) -> cw_vars c !! j = Some (Some q) ->
    ctrans c (CAssign i j) CUnit (Cow (cw_mem c) (<[i := Some q]> (cw_vars c)))
| CT_amove i j p q : cw_vars c !! i = Some (Some p) -> cw_vars c !! j = Some (Some q) -> i <> j ->
    ctrans c (CAssignMove i j) CUnit (Cow (cw_mem c) (<[i := Some q]> (<[j := Some None]> (cw_vars c))))
| CT_amove_self i p : cw_vars c !! i = Some (Some p) -> ctrans c (CAssignMove i i) CUnit c
| CT_raw i p z : cw_vars c !! i = Some (Some p) ->
    ctrans c (CAssignRaw i z) CUnit (Cow (cw_mem c ++ [z]) (<[i := Some (Some (length (cw_mem c)))]> (cw_vars c)))
| CT_destroy i p : cw_vars c !! i = Some (Some p) -> ctrans c (CDestroy i) CUnit (Cow (cw_mem c) (<[i := None]> (cw_vars c)))
| CT_read i a z : cw_vars c !! i = Some (Some (Some a)) -> cw_mem c !! a = Some z -> ctrans c (CRead i) (CVal z) c
| CT_write i a z0 z : cw_vars c !! i = Some (Some (Some a)) -> cw_mem c !! a = Some z0 -> ~ 1 < count c a ->
    ctrans c (CWrite i z) CUnit (Cow (<[a := z]> (cw_mem c)) (cw_vars c))
| CT_write_copy i a z0 z : cw_vars c !! i = Some (Some (Some a)) -> cw_mem c !! a = Some z0 -> 1 < count c a ->
    ctrans c (CWrite i z) CUnit (Cow (<[length (cw_mem c) := z]> (cw_mem c ++ [z0])) (<[i := Some (Some (length (cw_mem c)))]> (cw_vars c)))
| CT_ref o i a : o = CRef i \/ o = CData i -> cw_vars c !! i = Some (Some (Some a)) -> ~ 1 < count c a -> ctrans c o (CAddr (Some a)) c
| CT_ref_copy o i a z0 : o = CRef i \/ o = CData i -> cw_vars c !! i = Some (Some (Some a)) -> cw_mem c !! a = Some z0 -> 1 < count c a ->
    ctrans c o (CAddr (Some (length (cw_mem c)))) (Cow (cw_mem c ++ [z0]) (<[i := Some (Some (length (cw_mem c)))]> (cw_vars c)))
| CT_data_null i : cw_vars c !! i = Some (Some None) -> ctrans c (CData i) (CAddr None) c
| CT_cdata i p : cw_vars c !! i = Some (Some p) -> ctrans c (CConstData i) (CAddr p) c
| CT_poke a z0 z : cw_mem c !! a = Some z0 -> 0 < count c a -> ctrans c (CPoke a z) CUnit (Cow (<[a := z]> (cw_mem c)) (cw_vars c))
| CT_peek a z : cw_mem c !! a = Some z -> 0 < count c a -> ctrans c (CPeek a) (CVal z) c
| CT_eq i j p q : cw_vars c !! i = Some (Some p) -> cw_vars c !! j = Some (Some q) -> ctrans c (CEq i j) (CIs (bool_decide (p = q))) c
| CT_bool i p : cw_vars c !! i = Some (Some p) -> ctrans c (CBool i) (CIs (bool_decide (p <> None))) c.

Lemma count_ext c c' a : cw_vars c' = cw_vars c -> count c' a = count c a.
Proof. unfold count. intros ->. reflexivity. Qed.

Lemma cstep_trans m c o r c' : cstep m c o = COk r c' -> ctrans c o r c'.
Proof.
  unfold cstep, detach, load, alloc, add_var. intros H.
  repeat (case_match; simplify_eq); rewrite ?get_var_Some in *; simplify_eq;
    repeat match goal with H : (_ <? _) = true |- _ => apply Nat.ltb_lt in H | H : (_ <? _) = false |- _ => apply Nat.ltb_ge in H end;
    repeat match goal with H : (_ =? _) = true |- _ => apply Nat.eqb_eq in H; subst | H : (_ =? _) = false |- _ => apply Nat.eqb_neq in H end;
    simplify_eq; try (econstructor; eauto; try lia; fail).
  all: try (first [eapply CT_write_copy | eapply CT_ref_copy | eapply CT_ref]; eauto; lia).
  - rewrite insert_length. econstructor; eauto.
  - match goal with H : cw_vars c !! ?i = Some (Some ?q) |- _ =>
      assert (c = Cow (cw_mem c) (<[i := Some q]> (cw_vars c))) as Hc by (rewrite list_insert_id by auto; destruct c; reflexivity);
      rewrite Hc at 2; econstructor; eauto end.
  - apply (CT_amove c i j o o0); auto.
  - eapply (CT_ref_copy c _ i); eauto.
  - eapply (CT_ref_copy c _ i); eauto.
Qed.

Lemma cstep_exn m c o c' : cstep m c o = CExn c' -> c' = c.
Proof. unfold cstep, detach, load, alloc, add_var. intros H. repeat (case_match; simplify_eq); auto. Qed.

Lemma ctrans_ok c o r c' : ctrans c o r c' -> cok c -> cok c'.
Proof.
  intros Ht Hok i a Hi. destruct Ht; cbn in *; try (eapply Hok; eassumption);
    rewrite ?app_length, ?insert_length, ?app_length; cbn;
    repeat match goal with
    | H : (_ ++ [_]) !! _ = Some _ |- _ => apply lookup_app_Some in H as [H|[_ H]];
        [|apply list_lookup_singleton_Some in H as [_ H]]
    | H : <[?k := _]> _ !! _ = Some _ |- _ => apply list_lookup_insert_Some in H as [(<- & H & _)|[_ H]]
    end; simplify_eq;
    try match goal with H : cw_vars ?cc !! _ = Some (Some (Some _)) |- _ => apply Hok in H end; try lia.
Qed.

Lemma crun_ok c os rs c' : crun c os = Some (rs, c') -> cok c -> cok c'.
Proof.
  revert c rs. induction os as [|[m o] os IH]; intros c rs Hr Hok; cbn in Hr; [simplify_eq; auto|].
  destruct (cstep m c o) as [r c1|c1| |] eqn:Hs; try discriminate.
  - destruct (crun c1 os) as [[rs' c2]|] eqn:He; simplify_eq. eapply IH; eauto. eapply ctrans_ok; eauto using cstep_trans.
  - apply cstep_exn in Hs as ->. destruct (crun c os) as [[rs' c2]|] eqn:He; simplify_eq. eauto.
Qed.
Lemma creach_ok c : creach c -> cok c.
Proof. intros (os & rs & H). eapply crun_ok; eauto. intros i a Hi. destruct i; discriminate. Qed.

(** ** Value semantics *)
Lemma shown_lookup c i : shown c !! i = match cw_vars c !! i with
  | Some None => Some None | Some (Some None) => Some (Some None) | Some (Some (Some a)) => Some (Some (cw_mem c !! a)) | None => None end.
Proof. unfold shown. rewrite list_lookup_fmap. destruct (cw_vars c !! i) as [[[]|]|]; reflexivity. Qed.
Lemma shown_val c i p : cw_vars c !! i = Some (Some p) ->
  vval (shown c) i = match p with None => Some None | Some a => Some (cw_mem c !! a) end.
Proof. intros H. unfold vval. rewrite shown_lookup, H. destruct p; reflexivity. Qed.

Lemma shown_same c c' : cw_vars c' = cw_vars c -> (forall i a, cw_vars c !! i = Some (Some (Some a)) -> cw_mem c' !! a = cw_mem c !! a) -> shown c' = shown c.
Proof.
  intros Hv Hm. apply list_eq. intros i. rewrite !shown_lookup, Hv. destruct (cw_vars c !! i) as [[[a|]|]|] eqn:E; auto. rewrite (Hm _ _ E). reflexivity.
Qed.
Lemma shown_app c z : cok c -> shown (Cow (cw_mem c ++ [z]) (cw_vars c)) = shown c.
Proof. intros Hok. apply shown_same; [reflexivity|]. intros i a Hi. cbn. apply lookup_app_l. eapply Hok; eauto. Qed.
Lemma shown_set M V i x : shown (Cow M (<[i := x]> V)) =
  <[i := match x with None => None | Some None => Some None | Some (Some a) => Some (M !! a) end]> (shown (Cow M V)).
Proof. unfold shown. cbn. rewrite list_fmap_insert. reflexivity. Qed.
Lemma shown_snoc M V x : shown (Cow M (V ++ [x])) =
  shown (Cow M V) ++ [match x with None => None | Some None => Some None | Some (Some a) => Some (M !! a) end].
Proof. unfold shown. cbn. rewrite fmap_app. reflexivity. Qed.
Lemma cow_eta c : Cow (cw_mem c) (cw_vars c) = c.
Proof. destruct c; reflexivity. Qed.
Lemma app_here (M : list Z) z : (M ++ [z]) !! length M = Some z.
Proof. apply list_lookup_middle. reflexivity. Qed.
Lemma insert_here (M : list Z) y z : <[length M := z]> (M ++ [y]) = M ++ [z].
Proof. rewrite (insert_app_r_alt M) by lia. rewrite Nat.sub_diag. reflexivity. Qed.

(** The only variable that shows an unshared object. *)
Lemma shown_poke c a z i : cw_vars c !! i = Some (Some (Some a)) -> a < length (cw_mem c) -> ~ 1 < count c a ->
  shown (Cow (<[a := z]> (cw_mem c)) (cw_vars c)) = <[i := Some (Some z)]> (shown c).
Proof.
  intros Hi Ha Hc. apply list_eq. intros j. rewrite shown_lookup. cbn. destruct (decide (i = j)) as [<-|Hn].
  - rewrite Hi. rewrite list_lookup_insert by auto. rewrite list_lookup_insert; [reflexivity|].
    unfold shown. rewrite fmap_length. eapply lookup_lt_Some; eauto.
  - rewrite list_lookup_insert_ne by auto. rewrite shown_lookup. destruct (cw_vars c !! j) as [[[b|]|]|] eqn:E; auto.
    rewrite list_lookup_insert_ne; [reflexivity|]. intros <-. apply Hc, count_shared. eauto.
Qed.

Lemma ctrans_values c o r c' : ctrans c o r c' -> cok c -> is_poke o = false ->
  shown c' = vstep (shown c) o /\ vres (shown c) o r.
Proof.
  intros Ht Hok Hp. destruct Ht; cbn [vstep vres]; try discriminate Hp.
  - rewrite shown_snoc, cow_eta. auto.
  - rewrite shown_snoc, shown_app, app_here by auto. auto.
  - rewrite shown_snoc, cow_eta, (shown_val _ _ _ H). auto.
  - rewrite shown_snoc, shown_set, cow_eta, (shown_val _ _ _ H). auto.
  - rewrite shown_set, cow_eta, (shown_val _ _ _ H0). auto.
  - rewrite decide_False by auto. rewrite !shown_set, cow_eta, (shown_val _ _ _ H0). auto.
  - rewrite decide_True by auto. auto.
  - rewrite shown_set, shown_app, app_here by auto. auto.
  - rewrite shown_set, cow_eta. auto.
  - split; [auto|]. rewrite (shown_val _ _ _ H), H0. eauto.
  - split; [|exact I]. eapply shown_poke; eauto.
  - split; [|exact I]. rewrite shown_set, insert_here, shown_app, app_here by auto. reflexivity.
  - destruct H as [->| ->]; cbn; auto.
  - assert (shown (Cow (cw_mem c ++ [z0]) (<[i := Some (Some (length (cw_mem c)))]> (cw_vars c))) = shown c) as ->.
    { rewrite shown_set, shown_app, app_here by auto. apply list_insert_id. rewrite shown_lookup, H0, H1. reflexivity. }
    destruct H as [->| ->]; cbn; auto.
  - auto.
  - auto.
  - auto.
  - auto.
  - split; [auto|]. rewrite (shown_val _ _ _ H). f_equal. apply bool_decide_ext. destruct p as [a|]; [|split; congruence].
    apply Hok, lookup_lt_is_Some in H as [z Hz]. rewrite Hz. split; congruence.
Qed.

Theorem value_semantics os rs c : crun cow0 os = Some (rs, c) -> Forall (fun o => is_poke (snd o) = false) os ->
  vtrace [] (map snd os) rs (shown c).
Proof.
  assert (forall c0, cok c0 -> crun c0 os = Some (rs, c) -> Forall (fun o => is_poke (snd o) = false) os ->
    vtrace (shown c0) (map snd os) rs (shown c)) as H.
  { revert rs. induction os as [|[m o] os IH]; intros rs c0 Hok Hr Hp; cbn in Hr; [simplify_eq; constructor|].
    inversion Hp as [|? ? Hp1 Hp2]; subst. cbn in Hp1.
    destruct (cstep m c0 o) as [r c1|c1| |] eqn:Hs; try discriminate.
    - destruct (crun c1 os) as [[rs' c2]|] eqn:He; simplify_eq. apply cstep_trans in Hs.
      destruct (ctrans_values _ _ _ _ Hs Hok Hp1) as [Hv Hres]. cbn. constructor; [exact Hres|]. rewrite <- Hv.
      apply IH; auto. eapply ctrans_ok; eauto.
    - apply cstep_exn in Hs as ->. destruct (crun c0 os) as [[rs' c2]|] eqn:He; simplify_eq. cbn. constructor. apply IH; auto. }
  intros Hr Hp. apply (H cow0); auto. intros i a Hi. destruct i; discriminate.
Qed.

(** An exception changes nothing. *)
Theorem exception_changes_nothing m c o c' : cstep m c o = CExn c' -> c' = c.
Proof. exact (cstep_exn m c o c'). Qed.

(** Writing through an address that one variable alone has. *)
Lemma poke_alone c a z c' m i r : creach c -> cstep m c (CPoke a z) = COk r c' -> cw_vars c !! i = Some (Some (Some a)) ->
  ~ (exists j, j <> i /\ same c i j) -> shown c' = <[i := Some (Some z)]> (shown c).
Proof.
  intros Hr Hs Hi Hn. apply cstep_trans in Hs. inversion Hs; subst; try (destruct_or?; discriminate). apply shown_poke; auto.
  - eapply lookup_lt_Some; eauto.
  - intros Hc. apply count_shared in Hc as (x & y & Hxy & Hx & Hy). destruct (decide (x = i)) as [->|].
    + apply Hn. exists y. split; [auto|]. exists a. auto.
    + apply Hn. exists x. split; [auto|]. exists a. auto.
Qed.

(** After write() the object has one owner; it gets a second one only by a copy. *)
Definition alone (c : cow) (a : addr) : Prop :=
  a < length (cw_mem c) /\ forall i j, cw_vars c !! i = Some (Some (Some a)) -> cw_vars c !! j = Some (Some (Some a)) -> i = j.
Lemma ref_alone m c i a c' : cok c -> cstep m c (CRef i) = COk (CAddr (Some a)) c' -> cw_vars c' !! i = Some (Some (Some a)) /\ alone c' a.
Proof.
  intros Hok Hs. apply cstep_trans in Hs. inversion Hs; subst; try (destruct_or?; discriminate); destruct_or?; simplify_eq.
  - split; [auto|]. split; [eauto|]. intros x y Hx Hy. destruct (decide (x = y)); [auto|]. exfalso. match goal with H : ~ 1 < _ |- _ => apply H, count_shared; eauto end.
  - cbn. split; [apply list_lookup_insert; eapply lookup_lt_Some; eauto|]. split; cbn; [rewrite app_length; cbn; lia|].
    assert (forall x, <[i0 := Some (Some (length (cw_mem c)))]> (cw_vars c) !! x = Some (Some (Some (length (cw_mem c)))) -> x = i0) as Hu.
    { intros x Hx. apply list_lookup_insert_Some in Hx as [(<- & _ & _)|[_ Hx]]; [auto|]. apply Hok in Hx. lia. }
    intros x y Hx%Hu Hy%Hu. congruence.
Qed.
Lemma alone_step c o r c' a : cok c -> ctrans c o r c' -> copies o = false -> alone c a -> alone c' a.
Proof.
  intros Hok Ht Hc [Ha Hal]. destruct Ht; cbn in Hc; try discriminate Hc; try (split; auto; fail);
    (split; cbn; [rewrite ?app_length, ?insert_length, ?app_length; cbn; lia|]); intros x y Hx Hy.
  all: repeat match goal with
    | H : (_ ++ [_]) !! _ = Some _ |- _ => apply lookup_app_Some in H as [H|[? H]];
        [|apply list_lookup_singleton_Some in H as [? H]]
    | H : <[?k := _]> _ !! _ = Some _ |- _ => apply list_lookup_insert_Some in H as [(? & ? & ?)|[? H]]
    end; subst; simplify_eq; auto; try lia; rewrite ?insert_length in *; try lia.
  all: try (exfalso; match goal with H : ?x <> ?y |- _ => apply H; apply Hal; auto end; fail).
  all: try (exfalso; match goal with H : ?x <> ?y |- _ => apply H; symmetry; apply Hal; auto end; fail).
Qed.
Lemma alone_run os c rs c' a : cok c -> crun c os = Some (rs, c') -> Forall (fun o => copies (snd o) = false) os -> alone c a -> alone c' a.
Proof.
  revert c rs. induction os as [|[m o] os IH]; intros c rs Hok Hr Hc Hal; cbn in Hr; [simplify_eq; auto|].
  inversion Hc as [|? ? Hc1 Hc2]; subst. cbn in Hc1. destruct (cstep m c o) as [r c1|c1| |] eqn:Hs; try discriminate.
  - destruct (crun c1 os) as [[rs' c2]|] eqn:He; simplify_eq. apply cstep_trans in Hs.
    apply (IH c1 rs'); eauto using ctrans_ok, alone_step.
  - apply cstep_exn in Hs as ->. destruct (crun c os) as [[rs' c2]|] eqn:He; simplify_eq. eauto.
Qed.
Theorem kept_reference m c i a c1 os rs c2 m' z r c3 : creach c -> cstep m c (CRef i) = COk (CAddr (Some a)) c1 ->
  crun c1 os = Some (rs, c2) -> Forall (fun o => copies (snd o) = false) os -> cstep m' c2 (CPoke a z) = COk r c3 ->
  exists j, cw_vars c2 !! j = Some (Some (Some a)) /\ shown c3 = <[j := Some (Some z)]> (shown c2).
Proof.
  intros Hr Href Hrun Hc Hp. apply creach_ok in Hr. destruct (ref_alone _ _ _ _ _ Hr Href) as [_ Hal].
  assert (cok c1) as Hok1 by (eapply ctrans_ok; eauto using cstep_trans).
  pose proof (alone_run _ _ _ _ _ Hok1 Hrun Hc Hal) as [Ha Hu]. apply cstep_trans in Hp. inversion Hp; subst; try (destruct_or?; discriminate).
  match goal with H : 0 < count _ _ |- _ => apply count_pos in H as [j Hj] end. exists j. split; [auto|].
  apply shown_poke; auto. intros Hcs. apply count_shared in Hcs as (x & y & Hn & Hx & Hy). apply Hn. eauto.
Qed.

(** ** Copies *)
Theorem write_copies_when_shared m c i z r c' : creach c -> cstep m c (CWrite i z) = COk r c' ->
  ((exists j, j <> i /\ same c i j) -> length (cw_mem c') = S (length (cw_mem c)) /\ forall j, j <> i -> ~ same c' i j) /\
  (~ (exists j, j <> i /\ same c i j) -> length (cw_mem c') = length (cw_mem c) /\ cw_vars c' = cw_vars c).
Proof.
  intros Hr Hs. apply creach_ok in Hr. apply cstep_trans in Hs. inversion Hs; subst; try (destruct_or?; discriminate); cbn.
  - split; [|rewrite insert_length; auto]. intros (j & Hj & b & Hb1 & Hb2). simplify_eq. exfalso.
    match goal with H : ~ _ |- _ => apply H, count_shared; eauto end.
  - split.
    + intros _. rewrite insert_length, app_length. cbn. split; [lia|]. intros j Hj (b & Hb1 & Hb2). cbn in *.
      rewrite list_lookup_insert in Hb1 by (eapply lookup_lt_Some; eauto). simplify_eq.
      rewrite list_lookup_insert_ne in Hb2 by auto. apply Hr in Hb2. lia.
    + intros Hn. exfalso. match goal with H : 1 < count _ _ |- _ => apply count_shared in H as (x & y & Hxy & Hx & Hy) end.
      apply Hn. destruct (decide (x = i)) as [->|]; [exists y|exists x]; (split; [auto|]); eexists; eauto.
Qed.

(** Operations that allocate: construction from a value, assignment of a raw pointer, and
    non-const access to a shared object. *)
Theorem no_other_copies m c o r c' : cstep m c o = COk r c' ->
  match o with CMake _ | CAssignRaw _ _ | CWrite _ _ | CRef _ | CData _ => True | _ => length (cw_mem c') = length (cw_mem c) end.
Proof. intros Hs. apply cstep_trans in Hs. destruct Hs; destruct_or?; subst; cbn; auto. apply insert_length. Qed.

Lemma eq_identity m c i j r c' : cstep m c (CEq i j) = COk r c' -> (exists p, cw_vars c !! i = Some (Some (Some p))) ->
  r = CIs true <-> same c i j.
Proof.
  intros Hs [a Ha]. apply cstep_trans in Hs. inversion Hs; subst; try (destruct_or?; discriminate). simplify_eq. unfold same. split.
  - intros Hb. injection Hb as Hb. apply bool_decide_eq_true in Hb as <-. eauto.
  - intros (b & Hb1 & Hb2). simplify_eq. rewrite bool_decide_true by auto. reflexivity.
Qed.
Lemma copy_same m c i r c' : cstep m c (CCopy i) = COk r c' -> (exists p, cw_vars c !! i = Some (Some (Some p))) ->
  same c' i (length (cw_vars c)).
Proof.
  intros Hs [a Ha]. apply cstep_trans in Hs. inversion Hs; subst; try (destruct_or?; discriminate). simplify_eq. exists a. cbn. split.
  - apply lookup_app_l_Some. auto.
  - apply list_lookup_middle. reflexivity.
Qed.
Lemma same_step c o r c' i j : ctrans c o r c' -> touches i o = false -> touches j o = false -> same c i j -> same c' i j.
Proof.
  intros Ht Hi Hj (a & Ha & Hb). exists a. destruct Ht; cbn in *; auto;
    repeat match goal with H : (_ || _)%bool = false |- _ => apply orb_false_iff in H as [? ?] end;
    destruct_or?; subst; cbn in *;
    repeat match goal with H : (_ =? _) = false |- _ => apply Nat.eqb_neq in H end;
    rewrite ?list_lookup_insert_ne by auto; auto using lookup_app_l_Some.
  split; apply lookup_app_l_Some; rewrite list_lookup_insert_ne by auto; auto.
Qed.
Theorem same_until_touched os c rs c' i j : crun c os = Some (rs, c') -> same c i j ->
  Forall (fun o => touches i (snd o) = false /\ touches j (snd o) = false) os -> same c' i j.
Proof.
  revert c rs. induction os as [|[m o] os IH]; intros c rs Hr Hsm Hf; cbn in Hr; [simplify_eq; auto|].
  inversion Hf as [|? ? [Hf1 Hf2] Hf3]; subst. cbn in *. destruct (cstep m c o) as [r c1|c1| |] eqn:Hs; try discriminate.
  - destruct (crun c1 os) as [[rs' c2]|] eqn:He; simplify_eq. apply cstep_trans in Hs. eauto using same_step.
  - apply cstep_exn in Hs as ->. destruct (crun c os) as [[rs' c2]|] eqn:He; simplify_eq. eauto.
Qed.

(** ** When operations are defined *)
Lemma usable_get c i : usable (shown c) i <-> exists p, get_var c i = Some p.
Proof.
  unfold usable, vval. rewrite shown_lookup. unfold get_var.
  destruct (cw_vars c !! i) as [[[a|]|]|]; split; intros; eauto; try congruence; destruct_and?; destruct H as [? H]; try congruence.
Qed.
Lemma holds_get c i : cok c -> holds_value (shown c) i <-> exists a z, get_var c i = Some (Some a) /\ cw_mem c !! a = Some z.
Proof.
  intros Hok. unfold holds_value, vval. rewrite shown_lookup. unfold get_var.
  destruct (cw_vars c !! i) as [[[a|]|]|]; split; try (intros [z Hz]; congruence); try (intros (x & z & Hx & Hz); congruence).
  - intros [z Hz]. simplify_eq. eauto.
  - intros (x & z & Hx & Hz). simplify_eq. eauto using f_equal.
Qed.
Lemma get_alive c i a : get_var c i = Some (Some a) -> (0 <? count c a) = true.
Proof. intros H. apply Nat.ltb_lt, count_pos. exists i. apply get_var_Some. auto. Qed.

Lemma not_usable c i : get_var c i = None -> ~ usable (shown c) i.
Proof. rewrite usable_get. intros H [p Hp]. congruence. Qed.

Theorem undefined_exactly m c o : creach c -> cstep m c o = CBad <-> ~ defined (shown c) (alive c) o.
Proof.
  intros Hr. apply creach_ok in Hr. split.
  - intros Hs Hd. destruct o; cbn [defined] in Hd; rewrite ?usable_get, ?(holds_get _ _ Hr) in Hd; destruct_and?;
      repeat match goal with H : exists _, _ |- _ => destruct H as [? H] end; destruct_and?;
      unfold cstep, detach, alloc, load, add_var in Hs; repeat match goal with H : get_var _ _ = _ |- _ => rewrite H in Hs end;
      try discriminate Hs.
    all: repeat match goal with
      | H : get_var ?c ?i = Some (Some ?x), H1 : cw_mem ?c !! ?x = Some _ |- _ =>
          lazymatch goal with _ : (0 <? count c x) = true |- _ => fail | _ => pose proof (get_alive _ _ _ H) end
      | x : option nat |- _ => destruct x; [|discriminate]
      | H : get_var ?c ?i = Some (Some ?x) |- _ =>
          lazymatch goal with _ : cw_mem c !! x = Some _ |- _ => fail | _ =>
            let Hx := fresh in pose proof H as Hx; apply get_var_Some, Hr, lookup_lt_is_Some in Hx as [? Hx] end
      | H : alive ?c ?x |- _ => pose proof H as Hp%count_pos%Nat.ltb_lt; destruct H as [? H]; apply get_var_Some in H
      end.
    all: repeat match goal with H : cw_mem _ !! _ = Some _ |- _ => rewrite H in Hs end.
    all: repeat match goal with H : (0 <? _) = true |- _ => rewrite H in Hs end.
    all: try (destruct (1 <? count _ _)); try (destruct m); try discriminate Hs.
    cbn [cw_mem set_var store] in Hs. rewrite app_here in Hs.
    match type of Hs with (if 0 <? count ?c' ?a then _ else _) = _ => assert (alive c' a) as Hp%count_pos end.
    { exists i. match goal with H : get_var c i = _ |- _ => apply get_var_Some in H end. cbn. apply list_lookup_insert. eapply lookup_lt_Some; eauto. }
    apply Nat.ltb_lt in Hp. rewrite Hp in Hs. discriminate.
  - intros Hn. destruct (cstep m c o) as [r c'|c'| |] eqn:Hs; auto; exfalso; apply Hn.
    + apply cstep_trans in Hs.
      assert (forall i p, cw_vars c !! i = Some (Some p) -> usable (shown c) i) as Hu
        by (intros i p Hi; apply usable_get; exists p; apply get_var_Some; auto).
      assert (forall i a, cw_vars c !! i = Some (Some (Some a)) -> holds_value (shown c) i) as Hh.
      { intros i a Hi. apply holds_get; auto. destruct (lookup_lt_is_Some_2 _ _ (Hr _ _ Hi)) as [z Hz]. exists a, z. rewrite get_var_Some. auto. }
      destruct Hs; destruct_or?; subst; cbn [defined]; eauto; apply count_pos; auto.
    + unfold cstep, detach, alloc, load, add_var in Hs. destruct o; cbn [defined]; auto.
      all: rewrite ?usable_get, ?(holds_get _ _ Hr).
      all: repeat (case_match; simplify_eq; try discriminate); eauto.
    + unfold cstep, detach, alloc, load, add_var in Hs. destruct o; cbn [defined]; auto.
      all: rewrite ?usable_get, ?(holds_get _ _ Hr).
      all: repeat (case_match; simplify_eq; try discriminate); eauto.
Qed.

(** ** Running out of memory *)
Lemma shared_count c i a : cw_vars c !! i = Some (Some (Some a)) -> 1 < count c a <-> exists j, j <> i /\ same c i j.
Proof.
  intros Hi. rewrite count_shared. split.
  - intros (x & y & Hn & Hx & Hy). destruct (decide (x = i)) as [->|Hne]; [exists y; split; [auto|exists a; auto]|].
    exists x. split; [auto|exists a; auto].
  - intros (j & Hn & b & Hb & Hj). simplify_eq. exists i, j. auto.
Qed.
Theorem out_of_memory c o : creach c -> defined (shown c) (alive c) o ->
  (exists r c', cstep CFine c o = COk r c') /\
  (cstep CNoBlock c o = CAbort <-> needs_memory c o) /\ (cstep CThrow c o = CExn c <-> needs_memory c o) /\
  (~ needs_memory c o -> forall m, cstep m c o = cstep CFine c o).
Proof.
  intros Hr Hd.
  assert (Hb : forall m, cstep m c o <> CBad) by (intros m H; apply (undefined_exactly m c o Hr) in H; auto).
  split. { destruct (cstep CFine c o) as [r c'|c'| |] eqn:Hs; [eauto|exfalso..|exfalso].
    - unfold cstep, detach, alloc, load, add_var in Hs. repeat (case_match; simplify_eq).
    - unfold cstep, detach, alloc, load, add_var in Hs. repeat (case_match; simplify_eq).
    - apply (Hb CFine); auto. }
  assert (Hk : forall i k, (forall m, detach m c i k <> CBad) -> (forall p c', k p c' <> CAbort /\ k p c' <> CExn c) ->
    (detach CNoBlock c i k = CAbort <-> exists j, j <> i /\ same c i j) /\ (detach CThrow c i k = CExn c <-> exists j, j <> i /\ same c i j) /\
    (~ (exists j, j <> i /\ same c i j) -> forall m, detach m c i k = detach CFine c i k)).
  { intros i k Hnb Hk. unfold detach, alloc in *. destruct (get_var c i) as [[a|]|] eqn:Hg; [|apply get_var_Some in Hg..|destruct (Hnb CFine); reflexivity].
    - apply get_var_Some in Hg. pose proof (shared_count _ _ _ Hg) as Hc. destruct (Nat.ltb_spec 1 (count c a)) as [Hlt|Hlt].
      + destruct (cw_mem c !! a) as [z|]; [|destruct (Hnb CFine); reflexivity]. rewrite <- Hc. split; [tauto|]. split; [tauto|]. intros; lia.
      + rewrite <- Hc. destruct (Hk (Some a) c). split; [split; [contradiction|lia]|]. split; [split; [contradiction|lia]|auto].
    - assert (Hno : ~ exists j, j <> i /\ same c i j) by (intros (j & _ & b & Hb' & _); congruence).
      destruct (Hk None c). tauto. }
  destruct o; cbn [needs_memory]; cbn [cstep] in *.
  all: try (apply Hk; [exact Hb|intros [a|] c'; unfold load; split; repeat case_match; discriminate]).
  all: unfold alloc, load, add_var in *; repeat case_match; try (split; [|split]; [split; [intros ?; first [discriminate|tauto]|tauto]..|reflexivity]).
  all: try (destruct (Hb CFine); reflexivity).
  all: try (split; [tauto|split; [tauto|tauto]]).
Qed.
