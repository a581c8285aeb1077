(** * The example combiners: proofs *)
From Verif Require Export SpecComb Examples.

Definition vals (ans : list (nat * lid * out)) : list (option Z) := omap (fun a => match snd a with OutOpt y => Some y | _ => None end) ans.

Section walk.
  Context {A : Type} (f : A -> option Z -> A) (fin : A -> prog) (body : slot_iter -> A -> (slot_iter -> A -> prog) -> prog).
  Context (Hbody : forall i a k, body i a k = it_deref i (fun y => k (it_next i) (f a y))).
  Context (Hfin : forall a, exists o, fin a = Ret o).
  Lemma while_S n pos a : while_ne (S n) (It pos) (It (S n + pos)) a body fin =
    it_deref (It pos) (fun y => while_ne n (It (S pos)) (It (n + S pos)) (f a y) body fin).
  Proof.
    cbn [while_ne]. unfold it_ne. cbn [it_pos]. destruct (Nat.eqb_spec pos (S n + pos)); [lia|]. cbn [negb]. rewrite Hbody.
    replace (S n + pos) with (n + S pos) by lia. reflexivity.
  Qed.
  Lemma while_0 pos a : while_ne 0 (It pos) (It (0 + pos)) a body fin = fin a.
  Proof. cbn. unfold it_ne. cbn. rewrite Nat.eqb_refl. reflexivity. Qed.
  Lemma walk_esteps e t eid xs a0 args evs q b :
    esteps e t eid xs (while_ne (length xs) (It 0) (It (length xs)) a0 body fin) args evs q b ->
    (exists n, n <= length xs /\ q = while_ne (length xs - n) (It n) (It (length xs)) (fold_left f (vals (answers eid evs)) a0) body fin /\
       map fst (answers eid evs) = zip (seq 0 n) (take n xs) /\ Forall (fun a => exists y, snd a = OutOpt y) (answers eid evs)) \/
    (exists n l x ans0, q = Ret (OutExn x) /\ answers eid evs = ans0 ++ [(n, l, OutExn x)] /\
       map fst (answers eid evs) = zip (seq 0 (S n)) (take (S n) xs) /\ n < length xs /\ Forall (fun a => exists y, snd a = OutOpt y) ans0).
  Proof.
    assert (Hz : forall n l, xs !! n = Some l -> zip (seq 0 (S n)) (take (S n) xs) = zip (seq 0 n) (take n xs) ++ [(n, l)]).
    { intros n0 l Hl. rewrite (take_S_r _ _ _ Hl), seq_S. cbn. rewrite zip_with_app; [reflexivity|].
      rewrite seq_length, take_length. apply lookup_lt_Some in Hl. lia. }
    assert (Hd : forall n a o k, n <= length xs -> Do o k = while_ne (length xs - n) (It n) (It (length xs)) a body fin ->
      n < length xs /\ o = ODeref n /\ (forall x, k (OutExn x) = Ret (OutExn x)) /\
      forall y, k (OutOpt y) = while_ne (length xs - S n) (It (S n)) (It (length xs)) (f a y) body fin).
    { intros n a o k Hle H. destruct (length xs - n) as [|m] eqn:Hm.
      - replace (length xs) with (0 + n) in H by lia. rewrite while_0 in H. destruct (Hfin a) as [o' Ho]. congruence.
      - replace (length xs) with (S m + n) in H by lia. rewrite while_S in H. unfold it_deref in H. injection H as -> ->.
        split; [lia|]. split; [reflexivity|]. split; [reflexivity|]. intros y. replace (length xs - S n) with m by lia. replace (length xs) with (m + S n) by lia. reflexivity. }
    induction 1 as [|evs o k r b Hs IH Hn|evs pos k l start b Hs IH Hl|evs pos k l c start r b Hs IH Hl Ho].
    - left. exists 0. split; [lia|]. rewrite Nat.sub_0_r. repeat split; constructor.
    - exfalso. destruct IH as [(n & Hle & Hq & _)|(n & l & x & ans0 & Hq & _)]; [|discriminate].
      apply Hd in Hq as (_ & -> & _); [|auto]. eapply Hn. reflexivity.
    - destruct IH as [(n & Hle & Hq & Hm & Hf)|(n & l0 & x & ans0 & Hq & _)]; [|discriminate].
      apply Hd in Hq as (Hlt & Hp & _ & Hk); [|auto]. injection Hp as ->.
      left. exists (S n). cbn [answers]. rewrite decide_True by auto. split; [lia|]. unfold vals in *. rewrite omap_app, fold_left_app. cbn [omap list_omap snd fold_left].
      rewrite Hk. split; [reflexivity|]. rewrite map_app, Hm. rewrite (Hz _ _ Hl). split; [reflexivity|]. apply Forall_app. split; [auto|]. repeat constructor. cbn. eauto.
    - destruct IH as [(n & Hle & Hq & Hm & Hf)|(n & l0 & x & ans0 & Hq & _)]; [|discriminate].
      apply Hd in Hq as (Hlt & Hp & Hx & Hk); [|auto]. injection Hp as ->. cbn [answers]. rewrite decide_True by auto.
      destruct Ho as [[y ->]|[x ->]].
      + left. exists (S n). split; [lia|]. unfold vals in *. rewrite omap_app, fold_left_app. cbn [omap list_omap snd fold_left].
        rewrite Hk. split; [reflexivity|]. rewrite map_app, Hm. rewrite (Hz _ _ Hl). split; [reflexivity|]. apply Forall_app. split; [auto|]. repeat constructor. cbn. eauto.
      + right. exists n, l, x, (answers eid evs). rewrite Hx. split; [reflexivity|]. split; [reflexivity|].
        rewrite map_app, Hm. rewrite (Hz _ _ Hl). auto.
  Qed.
  Lemma walk_result e ps w t eid s args xs k a0 o : reachable e ps w -> began (w_log w) t eid s args xs (Some k) -> EEmitRet t eid o ∈ w_log w ->
    e_comb e k (length xs) = while_ne (length xs) (It 0) (It (length xs)) a0 body fin ->
    walks xs (answers eid (w_log w)) o (fun _ o => fin (fold_left f (vals (answers eid (w_log w))) a0) = Ret o).
  Proof.
    intros Hr Hb Hin Hc. pose proof (emission _ _ _ _ _ _ _ _ _ Hr Hb) as He. unfold combiner in He. rewrite Hc in He.
    destruct (did_newest _ _ _ _ _ _ Hr Hin) as (s' & a' & xs' & c' & evs & b & Hb' & Hd & _).
    rewrite answers_did. rewrite Hd in He |- *. cbn [answers]. inversion He; subst.
    1: match goal with H : esteps _ _ _ _ _ _ (_ :: _) _ _ |- _ => exfalso; eapply (esteps_thr _ _ _ _ _ _ _ _ _ H); apply elem_of_list_here end.
    match goal with H : esteps _ _ _ _ _ _ _ (Ret o) _ |- _ => apply walk_esteps in H as [(n & Hle & Hq & Hm & Hf)|(n & l & x & ans0 & Hq & Ha & Hm & Hlt & Hf)] end.
    - left. destruct (length xs - n) as [|m] eqn:Hn.
      + replace n with (length xs) in * by lia. rewrite take_ge in Hm by lia. split; [|auto].
        pose proof (while_0 (length xs) (fold_left f (vals (answers eid evs)) a0)) as H0. cbn [Nat.add] in H0. rewrite H0 in Hq. auto.
      + exfalso. replace (length xs) with (S m + n) in Hq by lia. rewrite while_S in Hq. discriminate Hq.
    - right. injection Hq as ->. exists n, l, x, ans0. auto.
  Qed.
End walk.

Lemma vals_values ans : values_of ans = omap id (vals ans).
Proof. unfold vals. induction ans as [|[[n l] o] ans IH]; [reflexivity|]. destruct o; cbn; auto. destruct o; cbn; [f_equal; auto|auto]. Qed.

(** ** maximum_value *)
Section max.
  Context (r : OptRel.rel Z).
  Notation lt := (OptRel.ltT r).
  Lemma keep_None vs m : fold_left (keep_max r) vs m = fold_left (keep_max r) (Some <$> omap id vs) m.
  Proof.
    revert m. induction vs as [|[z|] vs IH]; intros m; [reflexivity|apply IH|]. cbn. rewrite <- IH. f_equal.
  Qed.
  Lemma keep_max_from zs m : transitive_lt lt -> irreflexive_lt lt -> exists z, fold_left (keep_max r) (Some <$> zs) (Some m) = Some z /\
    (z = m \/ z ∈ zs /\ lt m z = true) /\ forall y, y ∈ m :: zs -> lt z y = false.
  Proof.
    intros Ht Hi. revert m. induction zs as [|y zs IH]; intros m.
    { exists m. split; [reflexivity|]. split; [auto|]. intros y Hy. apply elem_of_list_singleton in Hy as ->. apply Hi. }
    cbn. unfold keep_max at 2, OptRel.oo_gt, OptRel.oo_lt. destruct (lt m y) eqn:Hlt.
    - destruct (IH y) as (z & Hz & Hin & Hmax). exists z. split; [exact Hz|]. split.
      + right. destruct Hin as [->|[Hin Hl]]; [split; [apply elem_of_list_here|auto]|]. split; [apply elem_of_list_further; auto|]. eapply Ht; eauto.
      + intros u Hu. apply elem_of_cons in Hu as [->|Hu]; [|apply Hmax; auto]. destruct (lt z m) eqn:Hzm; [|auto].
        assert (Hzy : lt z y = true) by (eapply Ht; eauto). rewrite (Hmax y) in Hzy by apply elem_of_list_here. discriminate.
    - destruct (IH m) as (z & Hz & Hin & Hmax). exists z. split; [exact Hz|]. split.
      + destruct Hin as [->|[Hin Hl]]; [auto|]. right. split; [apply elem_of_list_further; auto|auto].
      + intros u Hu. apply elem_of_cons in Hu as [->|Hu]; [apply Hmax; apply elem_of_list_here|]. apply elem_of_cons in Hu as [->|Hu]; [|apply Hmax; apply elem_of_list_further; auto].
        destruct (lt z y) eqn:Hzy; [|auto]. exfalso. destruct Hin as [->|[Hin Hl]]; [congruence|]. rewrite (Ht _ _ _ Hl Hzy) in Hlt. discriminate.
  Qed.
  Lemma keep_max_is vs : transitive_lt lt -> irreflexive_lt lt -> is_max lt (omap id vs) (fold_left (keep_max r) vs None).
  Proof.
    intros Ht Hi. rewrite keep_None. destruct (omap id vs) as [|z zs]; [reflexivity|]. cbn.
    destruct (keep_max_from zs z Ht Hi) as (m & Hm & Hin & Hmax). change (keep_max r None (Some z)) with (Some z). rewrite Hm. cbn. split; [|auto].
    destruct Hin as [->|[Hin _]]; [apply elem_of_list_here|apply elem_of_list_further; auto].
  Qed.
  Lemma keep_first_from zs m : transitive_lt lt -> irreflexive_lt lt -> weakly_ordered lt -> exists z before after, fold_left (keep_max r) (Some <$> zs) (Some m) = Some z /\
    m :: zs = before ++ z :: after /\ Forall (fun y => lt y z = true) before /\ Forall (fun y => lt z y = false) after.
  Proof.
    intros Ht Hi Hw. revert m. induction zs as [|y zs IH]; intros m.
    { exists m, [], []. repeat split; constructor. }
    cbn. unfold keep_max at 2, OptRel.oo_gt, OptRel.oo_lt. destruct (lt m y) eqn:Hlt.
    - destruct (IH y) as (z & before & after & Hz & Hsp & Hb & Ha). exists z, (m :: before), after. split; [exact Hz|]. split; [cbn; congruence|]. split; [|auto].
      constructor; [|auto]. destruct before as [|u before]; cbn in Hsp; simplify_eq; [auto|]. apply Forall_cons in Hb as [Hb _]. eapply Ht; eauto.
    - destruct (IH m) as (z & before & after & Hz & Hsp & Hb & Ha). destruct before as [|u before]; cbn in Hsp; simplify_eq.
      + exists z, [], (y :: after). split; [exact Hz|]. repeat split; [constructor|]. constructor; auto.
      + exists z, (u :: y :: before), after. split; [exact Hz|]. split; [reflexivity|]. split; [|auto].
        apply Forall_cons in Hb as [Hb1 Hb2]. repeat constructor; auto. destruct (Hw _ y _ Hb1) as [H|H]; [congruence|auto].
  Qed.
  Lemma keep_first vs : transitive_lt lt -> irreflexive_lt lt -> weakly_ordered lt -> is_first_max lt (omap id vs) (fold_left (keep_max r) vs None).
  Proof.
    intros Ht Hi Hw. rewrite keep_None. destruct (omap id vs) as [|z zs]; [reflexivity|]. cbn.
    destruct (keep_first_from zs z Ht Hi Hw) as (m & before & after & Hm & H). change (keep_max r None (Some z)) with (Some z). rewrite Hm. exists before, after. exact H.
  Qed.
End max.

Lemma walks_imp xs ans o (P Q : list Z -> out -> Prop) : walks xs ans o P -> (P (values_of ans) o -> Q (values_of ans) o) -> walks xs ans o Q.
Proof. intros [(H & H')|H] HQ; [left; split; [auto|exact H']|right; exact H]. Qed.

Lemma maximum_result r e ps w t eid s a xs k o : reachable e ps w -> began (w_log w) t eid s a xs (Some k) -> EEmitRet t eid o ∈ w_log w ->
  e_comb e k (length xs) = maximum_value r (length xs) -> transitive_lt (OptRel.ltT r) -> irreflexive_lt (OptRel.ltT r) ->
  walks xs (answers eid (w_log w)) o (fun zs o => exists m, o = OutOpt m /\ is_max (OptRel.ltT r) zs m /\
    (weakly_ordered (OptRel.ltT r) -> is_first_max (OptRel.ltT r) zs m)).
Proof.
  intros Hr Hb Hin Hc Ht Hi. eapply walks_imp.
  - eapply (walk_result (keep_max r) (fun max => Ret (OutOpt max)) (max_body r)); eauto.
  - cbn. intros H. injection H as <-. eexists. split; [reflexivity|]. rewrite vals_values. split; [apply keep_max_is; auto|intros; apply keep_first; auto].
Qed.
Lemma max_or_default_result r d e ps w t eid s a xs k o : reachable e ps w -> began (w_log w) t eid s a xs (Some k) -> EEmitRet t eid o ∈ w_log w ->
  e_comb e k (length xs) = max_or_default r d (length xs) -> transitive_lt (OptRel.ltT r) -> irreflexive_lt (OptRel.ltT r) ->
  walks xs (answers eid (w_log w)) o (fun zs o => exists m, o = OutZ (match m with Some z => z | None => d end) /\ is_max (OptRel.ltT r) zs m).
Proof.
  intros Hr Hb Hin Hc Ht Hi. eapply walks_imp.
  - eapply (walk_result (keep_max r) (fun max => Ret (OutZ (match max with Some z => z | None => d end))) (max_body r)); eauto.
  - cbn. intros H. injection H as <-. eexists. split; [reflexivity|]. rewrite vals_values. apply keep_max_is; auto.
Qed.
Lemma aggregate_result e ps w t eid s a xs k o : reachable e ps w -> began (w_log w) t eid s a xs (Some k) -> EEmitRet t eid o ∈ w_log w ->
  e_comb e k (length xs) = aggregate_values (length xs) ->
  walks xs (answers eid (w_log w)) o (fun zs o => o = OutList zs).
Proof.
  intros Hr Hb Hin Hc. eapply walks_imp.
  - eapply (walk_result (fun values value => match value with Some z => values ++ [z] | None => values end) (fun values => Ret (OutList values)) aggr_body); eauto.
  - cbn. intros H. injection H as <-. rewrite vals_values. f_equal. generalize (vals (answers eid (w_log w))) as vs.
    enough (Hg : forall (vs : list (option Z)) (acc : list Z), fold_left (fun values value => match value with Some z => values ++ [z] | None => values end) vs acc = acc ++ omap id vs) by (intros vs; apply Hg).
    induction vs as [|[z|] vs IH]; intros acc; cbn; [rewrite app_nil_r; reflexivity|rewrite IH, <- app_assoc; reflexivity|apply IH].
Qed.

(** ** Concrete emissions *)
Definition z_rel : OptRel.rel Z := OptRel.Rel Z.eqb (fun x y => negb (Z.eqb x y)) Z.ltb (fun x y => Z.ltb y x) Z.leb (fun x y => Z.leb y x).
Lemma z_transitive : transitive_lt (OptRel.ltT z_rel).
Proof. intros x y z. cbn. rewrite !Z.ltb_lt. lia. Qed.
Lemma z_irreflexive : irreflexive_lt (OptRel.ltT z_rel).
Proof. intros x. cbn. apply Z.ltb_irrefl. Qed.
Lemma z_weakly : weakly_ordered (OptRel.ltT z_rel).
Proof. intros x y z. cbn. rewrite !Z.ltb_lt. lia. Qed.
(** No slots; slots that return 3, 9 and 5, with the second one blocked and not; and with a
    fourth one that throws. *)
Definition c1_env : env :=
  Env false (fun _ => true) (fun _ a b => Ret (OutBool (Nat.eqb a b)))
    (fun r c args => if Nat.eqb (c_fv c) 7 then Ret (OutExn (UserExn 5)) else Ret (OutZ (Z.of_nat (c_fv c))))
    (fun _ _ => false) (fun _ => 0%Z) (fun _ => None)
    (fun k n => match k with 0 => maximum_value z_rel n | 1 => max_or_default z_rel (-1) n | _ => aggregate_values n end).
Definition c1_prog (k : nat) := seqp [ONewSignal (Some k); OEmit 0 []; OConnect 0 (SrcFn (fn 3)) false; OConnect 0 (SrcFn (fn 9)) false;
  OConnect 0 (SrcFn (fn 5)) false; OVar (VBlock 1); OEmit 0 []; OVar (VUnblock 1); OEmit 0 []; OConnect 0 (SrcFn (fn 7)) false; OEmit 0 []] OutUnit.
Definition emits (rs : list out) (log : list event) : bool :=
  bool_decide (rs = omap (fun ev => match ev with EEmitRet _ _ o => Some o | _ => None end) (rev log)).
Lemma ex_C57_max : exists w, reachable c1_env [c1_prog 0] w /\
  emits [OutOpt None; OutOpt (Some 5%Z); OutOpt (Some 9%Z); OutExn (UserExn 5)] (w_log w) = true.
Proof. by_state c1_env [c1_prog 0] (one 300). Qed.
Lemma ex_C57_default : exists w, reachable c1_env [c1_prog 1] w /\
  emits [OutZ (-1); OutZ 5; OutZ 9; OutExn (UserExn 5)] (w_log w) = true.
Proof. by_state c1_env [c1_prog 1] (one 300). Qed.
Lemma ex_C57_aggregate : exists w, reachable c1_env [c1_prog 2] w /\
  emits [OutList []; OutList [3%Z; 5%Z]; OutList [3%Z; 9%Z; 5%Z]; OutExn (UserExn 5)] (w_log w) = true.
Proof. by_state c1_env [c1_prog 2] (one 300). Qed.
