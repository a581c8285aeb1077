(** * optional<T&> and optional<void>: specification and proofs *)
From Verif Require Export OptRefModel.
Set Default Goal Selector "!".
Open Scope Z_scope.

(** ** Specification *)
(** The operations with which a client writes an object: through the optional or directly. *)
Definition is_store (o : rop) : bool := match o with RSet _ _ | RPoke _ _ => true | _ => false end.
(** The operations that decide what variable [i] refers to. *)
Definition binds (i : nat) (o : rop) : bool :=
  match o with
  | RDelete k | RNone k | RAssign k _ | REmplace k _ => bool_decide (k = i)
  | RSwap a b => bool_decide (a = i) || bool_decide (b = i)
  | _ => false
  end.
(** What variable [i] refers to after the operations [os], the newest first, of which
    [nvars] says how many variables there were before each: the object it was last bound to,
    directly or by copying from another variable. *)
Definition rcreates (o : rop) : bool := match o with RNew | RBind _ | RCopy _ => true | _ => false end.
Definition vars_made (os : list rop) : nat := length (filter (fun o => rcreates o = true) os).
Fixpoint refers (os : list rop) (i : nat) : option loc :=
  match os with
  | [] => None
  | o :: os =>
      match o with
      | RNew => if decide (i = vars_made os) then None else refers os i
      | RBind a => if decide (i = vars_made os) then Some a else refers os i
      | RCopy j => if decide (i = vars_made os) then refers os j else refers os i
      | RNone k => if decide (i = k) then None else refers os i
      | RAssign k j => if decide (i = k) then refers os j else refers os i
      | REmplace k a => if decide (i = k) then Some a else refers os i
      | RSwap a b => if decide (i = b) then refers os a else if decide (i = a) then refers os b else refers os i
      | _ => refers os i
      end
  end.
(** What the client's object [a] contains: what was last written to it, directly or through
    an optional. *)
Fixpoint contents (mem : list Z) (os : list rop) (a : loc) : option Z :=
  match os with
  | [] => mem !! a
  | o :: os =>
      match o with
      | RSet i z => if decide (refers os i = Some a) then Some z else contents mem os a
      | RPoke b z => if decide (b = a) then Some z else contents mem os a
      | _ => contents mem os a
      end
  end.
(** The answer of [o] after [os]. *)
Definition ref_answer (mem : list Z) (os : list rop) (o : rop) (r : rans) : Prop :=
  match o with
  | RHas i => r = RB (match refers os i with Some _ => true | None => false end)
  | RGet i => exists a z, refers os i = Some a /\ contents mem os a = Some z /\ r = RZ z
  | RValue i => match refers os i with None => r = RAccess | Some a => exists z, contents mem os a = Some z /\ r = RZ z end
  | RValueOr i d => match refers os i with None => r = RZ d | Some a => exists z, contents mem os a = Some z /\ r = RZ z end
  | RPeek a => exists z, contents mem os a = Some z /\ r = RZ z
  | RNew | RBind _ | RCopy _ => r = RVar (vars_made os)
  | _ => r = RUnit
  end.

(** What a client may do: name a variable that exists, bind to an object that exists,
    dereference only what refers to something. *)
Definition has_var (os : list rop) (i : nat) : Prop := (i < vars_made os)%nat /\ RDelete i ∉ os.
Definition ref_legal (mem : list Z) (os : list rop) (o : rop) : Prop :=
  match o with
  | RNew => True
  | RBind a | RPeek a | RPoke a _ => (a < length mem)%nat
  | REmplace i a => has_var os i /\ (a < length mem)%nat
  | RAssign i j | RSwap i j => has_var os i /\ has_var os j
  | RGet i | RSet i _ => has_var os i /\ refers os i <> None
  | RCopy i | RDelete i | RNone i | RHas i | RValue i | RValueOr i _ => has_var os i
  end.
Definition uses_var (o : uop) : list nat :=
  match o with
  | UNew => [] | UCopy i | UDelete i | UAssign i | UEmplace i | UReset i | UHas i | UValue i | UValueOr i _ | UDeref i => [i]
  | USwap i j => [i; j]
  end.
(** The same for optional<void>. *)
Definition ucreates (o : uop) : bool := match o with UNew | UCopy _ => true | _ => false end.
Definition void_legal (os : list uop) (o : uop) : Prop :=
  (forall i, o <> UDeref i) /\
  Forall (fun i => (i < length (filter (fun o => ucreates o = true) os))%nat /\ UDelete i ∉ os) (uses_var o).

(** ** Proofs *)
Definition Rel (mem : list Z) (os : list rop) (w : rw) : Prop :=
  (forall a, r_mem w !! a = contents mem os a) /\ length (r_opt w) = vars_made os /\
  (forall i r, r_opt w !! i = Some (Some r) -> refers os i = r).
Lemma vars_made_cons o os : vars_made (o :: os) = ((if rcreates o then 1 else 0) + vars_made os)%nat.
Proof. unfold vars_made. rewrite filter_cons. by destruct (rcreates o). Qed.
Lemma rvar_inv w i k x : rvar w i k = Some x -> exists r, r_opt w !! i = Some (Some r) /\ k r = Some x.
Proof. unfold rvar. destruct (r_opt w !! i) as [[r|]|]; try done. eauto. Qed.
Lemma Rel_step mem os w o r w' : Rel mem os w -> rexec o w = Some (r, w') -> Rel mem (o :: os) w' /\ ref_answer mem os o r.
Proof.
  intros (Hm & Hl & Hr) He.
  assert (Hpush : forall x r w', rpush w x = Some (r, w') -> rcreates o = true ->
    (forall i, refers (o :: os) i = if decide (i = vars_made os) then x else refers os i) ->
    (forall a, contents mem (o :: os) a = contents mem os a) ->
    Rel mem (o :: os) w' /\ r = RVar (vars_made os)).
  { intros x r0 w0 [= <- <-] Hc Hx Hmem. split; [|by rewrite Hl]. split_and!; cbn [r_mem r_opt].
    - intros a. by rewrite Hmem.
    - rewrite vars_made_cons, Hc, app_length. cbn. lia.
    - intros i y Hy. rewrite Hx. case_decide as Hd.
      + subst. rewrite <- Hl, lookup_app_r, Nat.sub_diag in Hy by lia. by cbn in Hy; simplify_eq.
      + rewrite lookup_app_l in Hy; [by apply Hr|]. apply lookup_lt_Some in Hy. rewrite app_length in Hy. cbn in Hy. lia. }
  assert (Hput : forall i x w', w' = rput w i x -> rcreates o = false ->
    (forall k y, x = Some y -> refers (o :: os) k = if decide (k = i) then y else refers os k) ->
    (x = None -> forall k, refers (o :: os) k = refers os k) ->
    (forall a, contents mem (o :: os) a = contents mem os a) -> Rel mem (o :: os) w').
  { intros i x w0 -> Hc Hx Hn Hmem. split_and!; cbn [r_mem r_opt rput].
    - intros a. by rewrite Hmem.
    - by rewrite vars_made_cons, Hc, insert_length.
    - intros k y Hy. destruct (decide (k = i)) as [->|Hk].
      + pose proof (lookup_lt_Some _ _ _ Hy) as Hlt. rewrite insert_length in Hlt. rewrite list_lookup_insert in Hy by done.
        simplify_eq. rewrite (Hx _ _ eq_refl). by rewrite decide_True.
      + rewrite list_lookup_insert_ne in Hy by done. destruct x as [x|].
        * rewrite (Hx _ _ eq_refl), decide_False by done. by apply Hr.
        * rewrite Hn by done. by apply Hr. }
  assert (Hsame : rcreates o = false -> (forall i, refers (o :: os) i = refers os i) ->
    (forall a, contents mem (o :: os) a = contents mem os a) -> Rel mem (o :: os) w).
  { intros Hc Hx Hmem. split_and!.
    - intros a. by rewrite Hmem.
    - by rewrite vars_made_cons, Hc.
    - intros i x Hi. rewrite Hx. by apply Hr. }
  assert (Hload : forall a r w', rload w a = Some (r, w') -> w' = w /\ exists z, contents mem os a = Some z /\ r = RZ z).
  { intros a r0 w0. unfold rload. destruct (r_mem w !! a) as [z|] eqn:Ha; [|done]. intros [= <- <-]. split; [done|].
    exists z. by rewrite <- Hm. }
  assert (Hstore : forall a z r w', rstore w a z = Some (r, w') -> rcreates o = false -> (forall i, refers (o :: os) i = refers os i) ->
    (forall b, contents mem (o :: os) b = if decide (a = b) then Some z else contents mem os b) -> Rel mem (o :: os) w' /\ r = RUnit).
  { intros a z r0 w0 Hs Hc Hx Hmem. unfold rstore in Hs. destruct (r_mem w !! a) as [z0|] eqn:Ha; [|done]. simplify_eq.
    split; [|done]. split_and!; cbn [r_mem r_opt].
    - intros b. rewrite Hmem. case_decide; [subst; apply list_lookup_insert; by eapply lookup_lt_Some|].
      rewrite list_lookup_insert_ne by done. apply Hm.
    - by rewrite vars_made_cons, Hc.
    - intros i x Hi. rewrite Hx. by apply Hr. }
  destruct o as [|a|j|i|i|i j|i a|i j|i|i|i z|i|i z|a|a z]; cbn [rexec] in He.
  - eapply Hpush; [exact He|done..].
  - unfold rloc in He. destruct (r_mem w !! a); [|done]. eapply Hpush; [exact He|done..].
  - apply rvar_inv in He as (x & Hj & He). eapply Hpush; [exact He|done| |done]. intros i. cbn. by rewrite (Hr _ _ Hj).
  - apply rvar_inv in He as (x & Hj & He). simplify_eq. split; [|done]. by eapply Hput.
  - apply rvar_inv in He as (x & Hj & He). simplify_eq. split; [|done]. eapply Hput; [done..| |done|done]. intros k y [= <-]. done.
  - apply rvar_inv in He as (x & Hj & He). apply rvar_inv in He as (y & Hi & He). simplify_eq. split; [|done].
    eapply Hput; [done..| |done|done]. intros k y' [= <-]. cbn. by rewrite (Hr _ _ Hj).
  - apply rvar_inv in He as (x & Hj & He). unfold rloc in He. destruct (r_mem w !! a); [|done]. simplify_eq. split; [|done].
    eapply Hput; [done..| |done|done]. by intros k y' [= <-].
  - apply rvar_inv in He as (x & Hi & He). apply rvar_inv in He as (y & Hj & He). simplify_eq. split; [|done]. split_and!; cbn [r_mem r_opt rput].
    + intros b. cbn. apply Hm.
    + by rewrite vars_made_cons, !insert_length.
    + intros k q Hk. cbn. destruct (decide (k = j)) as [->|Hkj].
      * rewrite list_lookup_insert in Hk by (rewrite insert_length; by eapply lookup_lt_Some). simplify_eq. by apply Hr.
      * rewrite list_lookup_insert_ne in Hk by done. destruct (decide (k = i)) as [->|Hki].
        -- rewrite list_lookup_insert in Hk by (by eapply lookup_lt_Some). simplify_eq. by apply Hr.
        -- rewrite list_lookup_insert_ne in Hk by done. by apply Hr.
  - apply rvar_inv in He as (x & Hi & He). simplify_eq. split; [by apply Hsame|]. cbn. by rewrite (Hr _ _ Hi).
  - apply rvar_inv in He as (x & Hi & He). destruct x as [a|]; [|done]. apply Hload in He as (-> & z & Hz & ->).
    split; [by apply Hsame|]. exists a, z. by rewrite (Hr _ _ Hi).
  - apply rvar_inv in He as (x & Hi & He). destruct x as [a|]; [|done]. eapply Hstore; [exact He|done|done|].
    intros b. cbn. rewrite (Hr _ _ Hi). destruct (decide (a = b)) as [->|]; [by rewrite decide_True|]. rewrite decide_False; [done|congruence].
  - apply rvar_inv in He as (x & Hi & He). destruct x as [a|].
    + apply Hload in He as (-> & z & Hz & ->). split; [by apply Hsame|]. cbn. rewrite (Hr _ _ Hi). eauto.
    + simplify_eq. split; [by apply Hsame|]. cbn. by rewrite (Hr _ _ Hi).
  - apply rvar_inv in He as (x & Hi & He). destruct x as [a|].
    + apply Hload in He as (-> & z' & Hz & ->). split; [by apply Hsame|]. cbn. rewrite (Hr _ _ Hi). eauto.
    + simplify_eq. split; [by apply Hsame|]. cbn. by rewrite (Hr _ _ Hi).
  - apply Hload in He as (-> & z & Hz & ->). split; [by apply Hsame|]. cbn. eauto.
  - by eapply Hstore.
Qed.
Lemma Rel_run mem os0 w os rs w' : Rel mem os0 w -> rrun w os = Some (rs, w') ->
  Rel mem (rev os ++ os0) w' /\ length rs = length os /\
  forall n o, os !! n = Some o -> exists r, rs !! n = Some r /\ ref_answer mem (rev (take n os) ++ os0) o r.
Proof.
  revert os0 w rs. induction os as [|o os IH]; intros os0 w rs HR Hr; cbn in Hr.
  { simplify_eq. split; [done|]. split; [done|]. intros n o Ho. by rewrite lookup_nil in Ho. }
  destruct (rexec o w) as [[r w1]|] eqn:E; [|done]. destruct (rrun w1 os) as [[rs1 w2]|] eqn:E2; [|done]. simplify_eq.
  destruct (Rel_step _ _ _ _ _ _ HR E) as [HR1 Ha]. destruct (IH _ _ _ HR1 E2) as (H1 & H2 & H3). cbn [rev].
  rewrite <- app_assoc. split; [done|]. split; [cbn; by rewrite H2|]. intros [|n] o' Ho; cbn in Ho.
  - simplify_eq. exists r. done.
  - destruct (H3 _ _ Ho) as (r' & Hr' & Ha'). exists r'. split; [done|]. cbn [take rev]. by rewrite <- app_assoc.
Qed.

(** Everything a client sees. *)
Lemma ref_answers mem os rs w : rrun (rw0 mem) os = Some (rs, w) ->
  length rs = length os /\ forall n o, os !! n = Some o -> exists r, rs !! n = Some r /\ ref_answer mem (rev (take n os)) o r.
Proof.
  intros Hr. assert (HR : Rel mem [] (rw0 mem)) by done. destruct (Rel_run _ _ _ _ _ _ HR Hr) as (_ & Hl & H).
  split; [done|]. intros n o Ho. destruct (H _ _ Ho) as (r & ? & Ha). rewrite app_nil_r in Ha. eauto.
Qed.
(** The library never writes an object. *)
Lemma ref_only_stores_write mem os rs w : rrun (rw0 mem) os = Some (rs, w) ->
  Forall (fun o => is_store o = false) os -> r_mem w = mem.
Proof.
  intros Hr Hos. assert (HR : Rel mem [] (rw0 mem)) by done. destruct (Rel_run _ _ _ _ _ _ HR Hr) as ((Hm & _) & _).
  apply list_eq. intros a. rewrite Hm, app_nil_r. assert (Hos' : Forall (fun o => is_store o = false) (rev os)) by (by apply Forall_rev).
  clear -Hos'. induction Hos' as [|o os3 Ho _ IH]; [done|]. by destruct o.
Qed.
(** A store changes one object: the one the optional refers to. *)
Lemma ref_store w i z r w' : rexec (RSet i z) w = Some (r, w') ->
  exists a, r_opt w !! i = Some (Some (Some a)) /\ w' = RW (<[a := z]> (r_mem w)) (r_opt w).
Proof.
  cbn. intros H. apply rvar_inv in H as ([a|] & Hi & H); [|done]. exists a. split; [done|]. unfold rstore in H.
  destruct (r_mem w !! a); by simplify_eq.
Qed.
(** Two variables one of which was assigned from the other refer to the same object, until one is bound again. *)
Lemma refers_frame os1 os i : Forall (fun o => binds i o = false) os1 -> (i < vars_made os)%nat -> refers (os1 ++ os) i = refers os i.
Proof.
  intros H Hi. induction H as [|o os1 Ho _ IH]; [done|]. cbn [app].
  assert (Hv : (vars_made os <= vars_made (os1 ++ os))%nat).
  { clear. induction os1 as [|o os1 IH]; [done|]. cbn [app]. rewrite vars_made_cons. lia. }
  destruct o as [|a|j|k|k|k j|k a|k j|k|k|k z|k|k z|a|a z]; cbn in *; try done;
    try (rewrite decide_False by lia; done); try (apply bool_decide_eq_false in Ho; rewrite decide_False by congruence; done).
  apply orb_false_iff in Ho as [H1 H2]. apply bool_decide_eq_false in H1, H2. rewrite !decide_False by congruence. done.
Qed.
Lemma vars_made_app a b : vars_made (a ++ b) = (vars_made a + vars_made b)%nat.
Proof. unfold vars_made. by rewrite filter_app, app_length. Qed.
Lemma ref_alias mem os1 i j os2 rs w rs2 w' z :
  rrun (rw0 mem) (os1 ++ RAssign i j :: os2) = Some (rs, w) ->
  Forall (fun o => binds i o = false /\ binds j o = false) os2 ->
  rrun w [RSet i z; RGet j] = Some (rs2, w') -> rs2 = [RUnit; RZ z].
Proof.
  intros Hr Hb Hr2.
  assert (Hall : exists rs3, rrun (rw0 mem) ((os1 ++ RAssign i j :: os2) ++ [RSet i z; RGet j]) = Some (rs ++ rs2, w') /\ rs3 = rs ++ rs2).
  { exists (rs ++ rs2). split; [|done]. revert Hr Hr2. generalize (os1 ++ RAssign i j :: os2) (rw0 mem). clear. intros os. revert rs.
    induction os as [|o os IH]; intros rs w0 H1 H2; cbn in H1.
    - by simplify_eq.
    - destruct (rexec o w0) as [[r w1]|] eqn:E; [|done]. destruct (rrun w1 os) as [[rs1 w2]|] eqn:E2; [|done]. simplify_eq.
      cbn [app rrun]. by rewrite E, (IH _ _ E2 H2). }
  destruct Hall as (_ & Hall & _).
  assert (HR : Rel mem [] (rw0 mem)) by done. destruct (Rel_run _ _ _ _ _ _ HR Hr) as ((_ & Hl & Hf) & Hlen & _).
  rewrite app_nil_r, rev_app_distr in Hf, Hl. cbn [rev] in Hf, Hl. rewrite <- app_assoc in Hf, Hl. cbn [app] in Hf, Hl.
  cbn in Hr2. destruct (rvar w i _) as [[r w1]|] eqn:E; [|done]. destruct (rvar w1 j _) as [[r2 w2]|] eqn:E2; [|done]. simplify_eq.
  apply rvar_inv in E as ([a|] & Hi & E); [|done]. apply rvar_inv in E2 as (y & Hj & E2).
  unfold rstore in E. destruct (r_mem w !! a) as [z0|] eqn:Ha; [|done]. simplify_eq. cbn in Hj.
  assert (Hbi : Forall (fun o => binds i o = false) (rev os2)) by (apply Forall_rev; eapply Forall_impl; [exact Hb|by intros ? []]).
  assert (Hbj : Forall (fun o => binds j o = false) (rev os2)) by (apply Forall_rev; eapply Forall_impl; [exact Hb|by intros ? []]).
  (* when the assignment was executed both variables existed *)
  assert (Hex : (i < vars_made (rev os1))%nat /\ (j < vars_made (rev os1))%nat).
  { clear -Hr. revert Hr. assert (HR : Rel mem [] (rw0 mem)) by done. revert HR.
    assert (Hg : forall os w0 rs0 base, Rel mem base w0 -> rrun w0 (os ++ RAssign i j :: os2) = Some (rs0, w) ->
      (i < vars_made (rev os ++ base))%nat /\ (j < vars_made (rev os ++ base))%nat).
    { induction os as [|o os IH]; intros w0 rs0 base HR H; cbn [app rrun] in H.
      - destruct (rexec (RAssign i j) w0) as [[r w1]|] eqn:E; [|done]. cbn in E. apply rvar_inv in E as (x & Hj & E).
        apply rvar_inv in E as (y & Hi & _). destruct HR as (_ & Hl & _). cbn [rev app]. rewrite <- Hl.
        split; by eapply lookup_lt_Some.
      - destruct (rexec o w0) as [[r w1]|] eqn:E; [|done]. destruct (rrun w1 _) as [[rs1 w2]|] eqn:E2; [|done]. simplify_eq.
        destruct (Rel_step _ _ _ _ _ _ HR E) as [HR1 _]. cbn [rev]. rewrite <- app_assoc. by eapply IH. }
    intros HR Hr. rewrite <- (app_nil_r (rev os1)). by eapply Hg. }
  pose proof (Hf _ _ Hi) as Hri. pose proof (Hf _ _ Hj) as Hrj.
  rewrite refers_frame in Hri by (try done; rewrite vars_made_cons; cbn; lia).
  rewrite refers_frame in Hrj by (try done; rewrite vars_made_cons; cbn; lia).
  cbn in Hri, Hrj. rewrite decide_True in Hri by done.
  assert (y = Some a) as ->. { case_decide; [subst|]; congruence. }
  unfold rload in E2. cbn in E2. rewrite list_lookup_insert in E2 by (by eapply lookup_lt_Some). by simplify_eq.
Qed.

(** Undefined behaviour. *)
Definition Liv (mem : list Z) (os : list rop) (w : rw) : Prop :=
  length (r_mem w) = length mem /\ (forall i, (exists r, r_opt w !! i = Some (Some r)) <-> has_var os i) /\
  (forall i, RDelete i ∈ os -> (i < length (r_opt w))%nat) /\
  (forall i a, r_opt w !! i = Some (Some (Some a)) -> (a < length mem)%nat).
Lemma Liv_step mem os w o r w' : Rel mem os w -> Liv mem os w -> rexec o w = Some (r, w') -> Liv mem (o :: os) w'.
Proof.
  intros (_ & Hl & Hr) (HM & HV & HD & HA) He.
  assert (Hsame : (forall i, o <> RDelete i) -> rcreates o = false -> forall i, has_var (o :: os) i <-> has_var os i).
  { intros Hd Hc i. unfold has_var. rewrite vars_made_cons, Hc, not_elem_of_cons. cbn. naive_solver. }
  assert (HDs : (forall i, o <> RDelete i) -> forall i, RDelete i ∈ o :: os -> (i < length (r_opt w))%nat).
  { intros Hd i Hi. apply elem_of_cons in Hi as [Hi|Hi]; [by destruct (Hd i)|auto]. }
  assert (Hpush : forall x r w', rpush w x = Some (r, w') -> (forall i, o <> RDelete i) -> rcreates o = true ->
    (forall a, x = Some a -> (a < length mem)%nat) -> Liv mem (o :: os) w').
  { intros x r0 w0 [= <- <-] Hd Hc Hx. split_and!; cbn [r_mem r_opt]; [done| | |].
    - intros i. unfold has_var. rewrite vars_made_cons, Hc, not_elem_of_cons. cbn [Nat.add].
      destruct (decide (i < length (r_opt w))%nat) as [Hi|Hi].
      + rewrite lookup_app_l by done. rewrite HV. unfold has_var. split; [|intros (? & ? & ?); split; [lia|done]].
        intros [? ?]. split_and!; [lia|by intros E; destruct (Hd _ (eq_sym E))|done].
      + destruct (decide (i = length (r_opt w))) as [->|Hi'].
        * rewrite lookup_app_r, Nat.sub_diag by done. cbn. split; [|eauto]. intros _. split; [lia|]. split; [by intros E; destruct (Hd _ (eq_sym E))|].
          intros Hin. apply HD in Hin. lia.
        * rewrite lookup_ge_None_2 by (rewrite app_length; cbn; lia). split; [by intros [? ?]|]. intros [? _]. lia.
    - intros i Hi. rewrite app_length. apply HDs in Hi; [lia|done].
    - intros i a. destruct (decide (i < length (r_opt w))%nat) as [Hi|Hi].
      + rewrite lookup_app_l by done. apply HA.
      + rewrite lookup_app_r by (by apply Nat.nlt_ge). intros [_ [= ->]]%list_lookup_singleton_Some. auto. }
  assert (Hput : forall l, length l = length (r_opt w) -> (forall i, o <> RDelete i) -> rcreates o = false ->
    (forall i, (exists r, l !! i = Some (Some r)) <-> (exists r, r_opt w !! i = Some (Some r))) ->
    (forall i a, l !! i = Some (Some (Some a)) -> (a < length mem)%nat) -> Liv mem (o :: os) (RW (r_mem w) l)).
  { intros l Hll Hd Hc Hlv Ha. split_and!; cbn [r_mem r_opt]; [done| | |done].
    - intros i. by rewrite Hsame, Hlv.
    - intros i. rewrite Hll. by apply HDs. }
  assert (Hput1 : forall i x y, r_opt w !! i = Some (Some x) -> (forall i, o <> RDelete i) -> rcreates o = false ->
    (forall a, y = Some a -> (a < length mem)%nat) -> Liv mem (o :: os) (rput w i (Some y))).
  { intros i x y Hi Hd Hc Hy. apply Hput; [by rewrite insert_length|done|done| |].
    - intros k. destruct (decide (k = i)) as [->|Hk]; [|by rewrite list_lookup_insert_ne].
      rewrite list_lookup_insert by (by eapply lookup_lt_Some). (split; intros _; eauto).
    - intros k a. destruct (decide (k = i)) as [->|Hk]; [|rewrite list_lookup_insert_ne by done; apply HA].
      rewrite list_lookup_insert by (by eapply lookup_lt_Some). intros [= ->]. auto. }
  assert (Hid : (forall i, o <> RDelete i) -> rcreates o = false -> Liv mem (o :: os) w).
  { intros Hd Hc. destruct w as [m l]. by apply Hput. }
  assert (Hload : forall a r w', rload w a = Some (r, w') -> w' = w).
  { intros a r0 w0. unfold rload. destruct (r_mem w !! a); [|done]. by intros [= <- <-]. }
  assert (Hstore : forall a z r w', rstore w a z = Some (r, w') -> (forall i, o <> RDelete i) -> rcreates o = false -> Liv mem (o :: os) w').
  { intros a z r0 w0 Hs Hd Hc. unfold rstore in Hs. destruct (r_mem w !! a); [|done]. simplify_eq.
    split_and!; cbn [r_mem r_opt]; [by rewrite insert_length| |by apply HDs|done]. intros i. by rewrite Hsame. }
  destruct o as [|a|j|i|i|i j|i a|i j|i|i|i z|i|i z|a|a z]; cbn [rexec] in He.
  - by eapply Hpush.
  - unfold rloc in He. destruct (r_mem w !! a) eqn:E; [|done]. eapply Hpush; [done..|]. intros b [= <-]. rewrite <- HM. by eapply lookup_lt_Some.
  - apply rvar_inv in He as (x & Hj & He). eapply Hpush; [done..|]. intros b ->. by eapply HA.
  - apply rvar_inv in He as (x & Hi & He). simplify_eq. split_and!; cbn [r_mem r_opt rput]; [done| | |].
    + intros k. unfold has_var. rewrite vars_made_cons, not_elem_of_cons. cbn. destruct (decide (k = i)) as [->|Hk].
      * rewrite list_lookup_insert by (by eapply lookup_lt_Some). split; [by intros [? ?]|]. by intros (_ & [] & _).
      * rewrite list_lookup_insert_ne by done. rewrite HV. unfold has_var. split; [intros [? ?]; split_and!; [done|congruence|done]|intros (? & _ & ?); done].
    + intros k Hk. rewrite insert_length. apply elem_of_cons in Hk as [[= ->]|Hk]; [by eapply lookup_lt_Some|auto].
    + intros k a Hk. destruct (decide (k = i)) as [->|Hki]; [|rewrite list_lookup_insert_ne in Hk by done; by eapply HA].
      rewrite list_lookup_insert in Hk by (by eapply lookup_lt_Some). done.
  - apply rvar_inv in He as (x & Hi & He). simplify_eq. by eapply Hput1.
  - apply rvar_inv in He as (x & Hj & He). apply rvar_inv in He as (y & Hi & He). simplify_eq. eapply Hput1; [done..|].
    intros b ->. by eapply HA.
  - apply rvar_inv in He as (x & Hi & He). unfold rloc in He. destruct (r_mem w !! a) eqn:E; [|done]. simplify_eq. eapply Hput1; [done..|].
    intros b [= <-]. rewrite <- HM. by eapply lookup_lt_Some.
  - apply rvar_inv in He as (x & Hi & He). apply rvar_inv in He as (y & Hj & He). simplify_eq.
    pose proof (lookup_lt_Some _ _ _ Hi) as Hil. pose proof (lookup_lt_Some _ _ _ Hj) as Hjl.
    apply Hput; [cbn; by rewrite !insert_length|done|done| |]; cbn [rput r_opt].
    + intros k. destruct (decide (k = j)) as [->|Hkj]; [rewrite list_lookup_insert by (by rewrite insert_length); (split; intros _; eauto)|].
      rewrite list_lookup_insert_ne by done. destruct (decide (k = i)) as [->|Hki]; [rewrite list_lookup_insert by done; (split; intros _; eauto)|].
      by rewrite list_lookup_insert_ne.
    + intros k b Hk. destruct (decide (k = j)) as [->|Hkj].
      * rewrite list_lookup_insert in Hk by (by rewrite insert_length). simplify_eq. by eapply HA.
      * rewrite list_lookup_insert_ne in Hk by done. destruct (decide (k = i)) as [->|Hki].
        -- rewrite list_lookup_insert in Hk by done. simplify_eq. by eapply HA.
        -- rewrite list_lookup_insert_ne in Hk by done. by eapply HA.
  - apply rvar_inv in He as (x & Hi & He). simplify_eq. by apply Hid.
  - apply rvar_inv in He as ([a|] & Hi & He); [|done]. apply Hload in He as ->. by apply Hid.
  - apply rvar_inv in He as ([a|] & Hi & He); [|done]. by eapply Hstore.
  - apply rvar_inv in He as ([a|] & Hi & He); [apply Hload in He as ->|simplify_eq]; by apply Hid.
  - apply rvar_inv in He as ([a|] & Hi & He); [apply Hload in He as ->|simplify_eq]; by apply Hid.
  - apply Hload in He as ->. by apply Hid.
  - by eapply Hstore.
Qed.
Lemma legal_iff mem os w o : Rel mem os w -> Liv mem os w -> ref_legal mem os o <-> is_Some (rexec o w).
Proof.
  intros (_ & _ & Hr) (HM & HV & _ & HA).
  assert (Hlo : forall a, (a < length mem)%nat <-> is_Some (r_mem w !! a)) by (intros a; by rewrite <- HM, lookup_lt_is_Some).
  assert (Hsome : forall x : rans * rw, True <-> is_Some (Some x)) by (intros x; split; eauto).
  assert (Hv : forall i (k : option loc -> option (rans * rw)), is_Some (rvar w i k) <-> has_var os i /\ forall r, r_opt w !! i = Some (Some r) -> is_Some (k r)).
  { intros i k. rewrite <- HV. unfold rvar. destruct (r_opt w !! i) as [[r|]|] eqn:E; split.
    - intros H. split; [eauto|]. by intros ? [= <-].
    - intros [_ H]. by apply H.
    - by intros [? ?].
    - by intros [[? ?] _].
    - by intros [? ?].
    - by intros [[? ?] _]. }
  assert (Hvs : forall i (k : option loc -> option (rans * rw)), (forall r, r_opt w !! i = Some (Some r) -> is_Some (k r)) -> is_Some (rvar w i k) <-> has_var os i).
  { intros i k Hk. rewrite Hv. split; [by intros [? _]|]. by intros. }
  assert (Hl : forall a, is_Some (rload w a) <-> (a < length mem)%nat).
  { intros a. rewrite Hlo. unfold rload. destruct (r_mem w !! a); split; intros [? ?]; try done; by eexists. }
  assert (Hs : forall a z, is_Some (rstore w a z) <-> (a < length mem)%nat).
  { intros a z. rewrite Hlo. unfold rstore. destruct (r_mem w !! a); split; intros [? ?]; try done; by eexists. }
  assert (Hb : forall a k, is_Some (rloc w a k) <-> (a < length mem)%nat /\ is_Some k).
  { intros a k. rewrite Hlo. unfold rloc. destruct (r_mem w !! a); split; intros H; [split; [eauto|done]|by destruct H|by destruct H|by destruct H as [[? ?] _]]. }
  destruct o as [|a|j|i|i|i j|i a|i j|i|i|i z|i|i z|a|a z]; cbn [rexec ref_legal].
  - apply Hsome.
  - rewrite Hb. split; [intros H; split; [done|by eexists]|by intros [? _]].
  - rewrite Hvs; [done|]. intros r _. by eexists.
  - rewrite Hvs; [done|]. intros r _. by eexists.
  - rewrite Hvs; [done|]. intros r _. by eexists.
  - rewrite Hv. split.
    + intros [Hi Hj]. split; [done|]. intros r _. rewrite Hvs; [done|]. intros r' _. by eexists.
    + intros [Hj Hx]. apply HV in Hj as Hj'. destruct Hj' as [r Hj']. apply Hx in Hj'. apply Hv in Hj' as [? _]. done.
  - rewrite Hv. split.
    + intros [Hi Ha]. split; [done|]. intros r _. rewrite Hb. split; [done|]. by eexists.
    + intros [Hj Hx]. apply HV in Hj as Hj'. destruct Hj' as [r Hj']. apply Hx in Hj'. apply Hb in Hj' as [? _]. done.
  - rewrite Hv. split.
    + intros [Hi Hj]. split; [done|]. intros r _. rewrite Hvs; [done|]. intros r' _. by eexists.
    + intros [Hj Hx]. apply HV in Hj as Hj'. destruct Hj' as [r Hj']. apply Hx in Hj'. apply Hv in Hj' as [? _]. done.
  - rewrite Hvs; [done|]. intros r _. by eexists.
  - rewrite Hv. split; intros [Hi Hx]; (split; [done|]).
    + intros r Hri. rewrite (Hr _ _ Hri) in Hx. destruct r as [a|]; [|done]. apply Hl. by eapply HA.
    + apply HV in Hi as Hi'. destruct Hi' as [r Hri]. rewrite (Hr _ _ Hri). apply Hx in Hri. destruct r; [done|]. by destruct Hri.
  - rewrite Hv. split; intros [Hi Hx]; (split; [done|]).
    + intros r Hri. rewrite (Hr _ _ Hri) in Hx. destruct r as [a|]; [|done]. apply Hs. by eapply HA.
    + apply HV in Hi as Hi'. destruct Hi' as [r Hri]. rewrite (Hr _ _ Hri). apply Hx in Hri. destruct r; [done|]. by destruct Hri.
  - rewrite Hvs; [done|]. intros [a|] Hri; [|by eexists]. apply Hl. by eapply HA.
  - rewrite Hvs; [done|]. intros [a|] Hri; [|by eexists]. apply Hl. by eapply HA.
  - by rewrite Hl.
  - by rewrite Hs.
Qed.
Lemma ref_undefined_gen mem base w os : Rel mem base w -> Liv mem base w ->
  is_Some (rrun w os) <-> forall n o, os !! n = Some o -> ref_legal mem (rev (take n os) ++ base) o.
Proof.
  revert base w. induction os as [|o os IH]; intros base w HR HL; cbn [rrun].
  { split; [|eauto]. intros _ n o Ho. by rewrite lookup_nil in Ho. }
  pose proof (legal_iff mem base w o HR HL) as Hlg. destruct (rexec o w) as [[r w1]|] eqn:E.
  - destruct (Rel_step _ _ _ _ _ _ HR E) as [HR1 _]. pose proof (Liv_step _ _ _ _ _ _ HR HL E) as HL1.
    pose proof (IH _ _ HR1 HL1) as IH1. split.
    + intros Hx [|n] o' Ho'; cbn in Ho'; [simplify_eq; apply Hlg; eauto|]. cbn [take rev]. rewrite <- app_assoc.
      apply IH1; [|done]. destruct (rrun w1 os); [eauto|]. by destruct Hx.
    + intros H. destruct IH1 as [_ IH1]. destruct IH1 as [[rs w2] ->]; [|eauto]. intros n o' Ho'. specialize (H (S n) o' Ho').
      cbn [take rev] in H. by rewrite <- app_assoc in H.
  - split; [by intros [? ?]|]. intros H. specialize (H 0%nat o eq_refl). apply Hlg in H as [? ?]. done.
Qed.
Lemma ref_undefined mem os : is_Some (rrun (rw0 mem) os) <-> forall n o, os !! n = Some o -> ref_legal mem (rev (take n os)) o.
Proof.
  rewrite (ref_undefined_gen mem [] (rw0 mem)); [|done|].
  - split; intros H n o Ho; specialize (H n o Ho); by rewrite app_nil_r in *.
  - split_and!; cbn; [done| |by intros i ?%elem_of_nil|by intros i a; rewrite lookup_nil].
    intros i. rewrite lookup_nil. unfold has_var. split; [by intros [? ?]|]. intros [H _]. cbn in H. lia.
Qed.

(** ** optional<void> *)
Lemma void_disengaged os rs w n r : urun [] os = Some (rs, w) -> rs !! n = Some r ->
  match os !! n with
  | Some (UHas _) => r = RB false
  | Some (UValue _) => r = RAccess
  | Some (UValueOr _ z) => r = RZ z
  | _ => True
  end.
Proof.
  generalize (@nil bool). revert rs n. induction os as [|o os IH]; intros rs n w0 Hr Hn; cbn in Hr; [by simplify_eq|].
  destruct (uexec o w0) as [[r1 w1]|] eqn:E; [|done]. destruct (urun w1 os) as [[rs1 w2]|] eqn:E2; [|done]. simplify_eq.
  destruct n as [|n]; [|by eapply IH]. cbn in Hn |- *. simplify_eq.
  destruct o; cbn in E; try done; unfold uvar in E; repeat case_match; by simplify_eq.
Qed.
Lemma void_undefined_gen base w os :
  (forall i, w !! i = Some true <-> (i < length (filter (fun o => ucreates o = true) base))%nat /\ UDelete i ∉ base) ->
  length w = length (filter (fun o => ucreates o = true) base) -> (forall i, UDelete i ∈ base -> (i < length w)%nat) ->
  is_Some (urun w os) <-> forall n o, os !! n = Some o -> void_legal (rev (take n os) ++ base) o.
Proof.
  revert base w. induction os as [|o os IH]; intros base w Hw Hl Hd; cbn [urun].
  { split; [|eauto]. intros _ n o Ho. by rewrite lookup_nil in Ho. }
  assert (Hlg : void_legal base o <-> is_Some (uexec o w)).
  { unfold void_legal. unfold is_Some. destruct o; cbn [uses_var]; rewrite ?Forall_cons, ?Forall_nil, <- ?Hw; unfold uexec, uvar;
      repeat match goal with |- context [w !! ?i] => destruct (w !! i) as [[]|] end;
      (split; [intros (? & H)|intros [? ?]]); try done; try (by destruct H); try (by destruct H as (? & ? & _)); eauto; try (by exfalso; naive_solver). }
  assert (Hnext : forall r w1, uexec o w = Some (r, w1) ->
    (forall i, w1 !! i = Some true <-> (i < length (filter (fun o => ucreates o = true) (o :: base)))%nat /\ UDelete i ∉ o :: base) /\
    length w1 = length (filter (fun o => ucreates o = true) (o :: base)) /\ (forall i, UDelete i ∈ o :: base -> (i < length w1)%nat)).
  { assert (Hkeep : ucreates o = false -> (forall i, o <> UDelete i) ->
      (forall i, w !! i = Some true <-> (i < length (filter (fun o => ucreates o = true) (o :: base)))%nat /\ UDelete i ∉ o :: base) /\
      length w = length (filter (fun o => ucreates o = true) (o :: base)) /\ (forall i, UDelete i ∈ o :: base -> (i < length w)%nat)).
    { intros Hc Hn. rewrite filter_cons, Hc. rewrite decide_False by done. split_and!; [|done|].
      - intros i. rewrite Hw, not_elem_of_cons. naive_solver.
      - intros i Hi. apply elem_of_cons in Hi as [Hi|Hi]; [by destruct (Hn i)|auto]. }
    assert (Hadd : ucreates o = true -> (forall i, o <> UDelete i) ->
      (forall i, (w ++ [true]) !! i = Some true <-> (i < length (filter (fun o => ucreates o = true) (o :: base)))%nat /\ UDelete i ∉ o :: base) /\
      length (w ++ [true]) = length (filter (fun o => ucreates o = true) (o :: base)) /\ (forall i, UDelete i ∈ o :: base -> (i < length (w ++ [true]))%nat)).
    { intros Hc Hn. rewrite filter_cons, Hc. rewrite decide_True by done. rewrite app_length. cbn [length]. split_and!; [|lia|].
      - intros i. rewrite not_elem_of_cons. destruct (decide (i < length w)%nat) as [Hi|Hi].
        + rewrite lookup_app_l by done. rewrite Hw. split; [intros [? ?]; split_and!; [lia|naive_solver|done]|intros (? & ? & ?); split; [lia|done]].
        + destruct (decide (i = length w)) as [->|Hi'].
          * rewrite lookup_app_r, Nat.sub_diag by done. cbn. split; [|done]. intros _. split_and!; [lia|naive_solver|].
            intros Hin. apply Hd in Hin. lia.
          * rewrite lookup_ge_None_2 by (rewrite app_length; cbn; lia). split; [done|]. intros [? _]. lia.
      - intros i Hi. apply elem_of_cons in Hi as [Hi|Hi]; [by destruct (Hn i)|]. apply Hd in Hi. lia. }
    intros r w1 He. destruct o; cbn in He; unfold uvar in He; repeat case_match; simplify_eq; try (apply Hkeep; by naive_solver); try (apply Hadd; by naive_solver).
    rewrite filter_cons. cbn [ucreates]. rewrite decide_False by done. rewrite insert_length. split_and!; [|done|].
    - intros k. rewrite not_elem_of_cons. destruct (decide (k = i)) as [->|Hk].
      + rewrite list_lookup_insert by (by eapply lookup_lt_Some). naive_solver.
      + rewrite list_lookup_insert_ne by done. rewrite Hw. naive_solver.
    - intros k Hk. apply elem_of_cons in Hk as [[= ->]|Hk]; [by eapply lookup_lt_Some|auto]. }
  destruct (uexec o w) as [[r w1]|] eqn:E.
  - destruct (Hnext _ _ eq_refl) as (H1 & H2 & H3). pose proof (IH _ _ H1 H2 H3) as IH1. split.
    + intros Hx [|n] o' Ho'; cbn in Ho'; [simplify_eq; apply Hlg; eauto|]. cbn [take rev]. rewrite <- app_assoc.
      apply IH1; [|done]. destruct (urun w1 os); [eauto|]. by destruct Hx.
    + intros H. destruct IH1 as [_ IH1]. destruct IH1 as [[rs w2] ->]; [|eauto]. intros n o' Ho'. specialize (H (S n) o' Ho').
      cbn [take rev] in H. by rewrite <- app_assoc in H.
  - split; [by intros [? ?]|]. intros H. specialize (H 0%nat o eq_refl). apply Hlg in H as [? ?]. done.
Qed.
Lemma void_undefined os : is_Some (urun [] os) <-> forall n o, os !! n = Some o -> void_legal (rev (take n os)) o.
Proof.
  rewrite (void_undefined_gen [] []); [|intros i; rewrite lookup_nil; cbn; split; [done|intros [? _]; lia]|done|by intros i ?%elem_of_nil].
  split; intros H n o Ho; specialize (H n o Ho); by rewrite app_nil_r in *.
Qed.

(** ** Examples *)
Close Scope Z_scope.
Lemma ex_ref : exists w, rrun (rw0 [10; 20]%Z) [RBind 0; RBind 1; RAssign 0 1; RSet 0 7; RPeek 0; RPeek 1; RGet 1; RNone 1; RHas 1; RValue 1; RGet 0] =
  Some ([RVar 0; RVar 1; RUnit; RUnit; RZ 10; RZ 7; RZ 7; RUnit; RB false; RAccess; RZ 7], w).
Proof. eexists. vm_compute. reflexivity. Qed.
Lemma ex_ref_no_store : exists w, rrun (rw0 [10; 20]%Z) [RBind 0; RBind 1; RAssign 0 1; RSwap 0 1; REmplace 1 0; RNone 0] =
  Some ([RVar 0; RVar 1; RUnit; RUnit; RUnit; RUnit], w) /\ r_opt w = [Some None; Some (Some 0)] /\ r_mem w = [10; 20]%Z.
Proof. eexists. vm_compute. auto. Qed.
Lemma ex_ref_alias : exists w w', rrun (rw0 [10; 20]%Z) ([RBind 0; RBind 1] ++ RAssign 0 1 :: [RPoke 1 3]) = Some ([RVar 0; RVar 1; RUnit; RUnit], w) /\
  rrun w [RSet 0 9; RGet 1] = Some ([RUnit; RZ 9], w') /\ r_mem w' = [10; 9]%Z.
Proof. eexists _, _. vm_compute. auto. Qed.
Lemma ex_void : urun [] [UNew; UAssign 0; UEmplace 0; UHas 0; UValue 0; UValueOr 0 4] = Some ([RVar 0; RUnit; RUnit; RB false; RAccess; RZ 4], [true]).
Proof. reflexivity. Qed.
