(** * What the operations on handles leave in the variables
    Connections, scoped connections, blockers and slot objects as plain values:
    which variables an operation writes, what it writes there, and its result.
    Nothing here uses the executable definitions of the operations. *)
From Verif Require Export SpecOwn.

(** The table [new] is [old] with exactly the entries [us] written. *)
Fixpoint entry {A} (x : nat) (us : list (nat * A)) : option A :=
  match us with
  | [] => None
  | (y, r) :: us => if Nat.eqb x y then Some r else entry x us
  end.
Definition written {A} (old new : list A) (us : list (nat * A)) : Prop :=
  forall x, new !! x = match entry x us with Some r => Some r | None => old !! x end.

(** A variable that has been constructed and not yet destroyed, and what it holds. *)
Definition conn_is (x : vars) (c : cid) (scoped : bool) (m : option lid) : Prop := v_conns x !! c = Some (ConnV true scoped m).
Definition blk_is (x : vars) (b : bid) (m : option lid) : Prop := v_blks x !! b = Some (BlkV true m).
Definition slot_is (x : vars) (u : uid) (i : option impl) : Prop := v_us x !! u = Some (UsV true i).

(** [handle_op x v cs bs us o]: operation [v], on variables [x], writes the
    connections [cs], the blockers [bs] and the slot objects [us] and returns [o].
    New variables get the next free number. *)
Inductive handle_op (x : vars) : vop -> list (nat * connv) -> list (nat * blkv) -> list (nat * usv) -> out -> Prop :=
(* a default constructed connection refers to nothing: 1485, 1570 *)
| HO_new sc : handle_op x (VNewConn sc) [(length (v_conns x), ConnV true sc None)] [] [] (OutId (length (v_conns x)))
(* a copy refers to the same slot, the original keeps it: 1488, 1576 *)
| HO_copy c sc sc0 m : conn_is x c sc0 m ->
    handle_op x (VCopyConn c sc) [(length (v_conns x), ConnV true sc m)] [] [] (OutId (length (v_conns x)))
(* a move takes it over, the source is left empty: 1489, 1580, 1586 *)
| HO_move c sc sc0 m : conn_is x c sc0 m ->
    handle_op x (VMoveConn c sc) [(length (v_conns x), ConnV true sc m); (c, ConnV true sc0 None)] [] [] (OutId (length (v_conns x)))
(* the same with the slot of a scoped connection: 1599 *)
| HO_release c sc0 m : conn_is x c sc0 m ->
    handle_op x (VRelease c) [(length (v_conns x), ConnV true false m); (c, ConnV true sc0 None)] [] [] (OutId (length (v_conns x)))
(* assignment to a connection, or to an empty scoped one: 1490, 1491, 1592 *)
| HO_assign_copy d s scd md scs m : conn_is x d scd md -> conn_is x s scs m -> scd = false \/ md = None ->
    handle_op x (VAssignCopy d s) [(d, ConnV true scd m)] [] [] OutUnit
| HO_assign_move d s scd md scs m : conn_is x d scd md -> conn_is x s scs m -> scd = false \/ md = None -> d <> s ->
    handle_op x (VAssignMove d s) [(d, ConnV true scd m); (s, ConnV true scs None)] [] [] OutUnit
| HO_assign_self d scd md : conn_is x d scd md -> scd = false \/ md = None ->
    handle_op x (VAssignMove d d) [] [] [] OutUnit
(* swap exchanges: 1537 *)
| HO_swap c d scc mc scd md : conn_is x c scc mc -> conn_is x d scd md ->
    handle_op x (VSwap c d) [(c, ConnV true scc md); (d, ConnV true scd mc)] [] [] OutUnit
(* a connection, or an empty scoped one, goes out of scope: 1486, 1571 *)
| HO_destroy c sc m : conn_is x c sc m -> sc = false \/ m = None ->
    handle_op x (VDestroyConn c) [(c, ConnV false sc None)] [] [] OutUnit
(* block, unblock and the queries write nothing: 1493-1530 *)
| HO_block c sc m : conn_is x c sc m -> handle_op x (VBlock c) [] [] [] OutUnit
| HO_unblock c sc m : conn_is x c sc m -> handle_op x (VUnblock c) [] [] [] OutUnit
(* a blocker refers to the slot of the connection it is made from: 1452, 1532 *)
| HO_blocker c sc m : conn_is x c sc m ->
    handle_op x (VBlocker c) [] [(length (v_blks x), BlkV true m)] [] (OutId (length (v_blks x)))
| HO_bnew : handle_op x VBNew [] [(length (v_blks x), BlkV true None)] [] (OutId (length (v_blks x)))
| HO_bmove b m : blk_is x b m ->
    handle_op x (VBMove b) [] [(length (v_blks x), BlkV true m); (b, BlkV true None)] [] (OutId (length (v_blks x)))
| HO_bassign d s md m : blk_is x d md -> blk_is x s m -> d <> s ->
    handle_op x (VBAssign d s) [] [(d, BlkV true m); (s, BlkV true None)] [] OutUnit
| HO_bself d m : blk_is x d m -> handle_op x (VBAssign d d) [] [] [] OutUnit
| HO_bswap b c mb mc : blk_is x b mb -> blk_is x c mc ->
    handle_op x (VBSwap b c) [] [(b, BlkV true mc); (c, BlkV true mb)] [] OutUnit
| HO_bdestroy b m : blk_is x b m -> handle_op x (VBDestroy b) [] [(b, BlkV false None)] [] OutUnit
(* a new slot object is connected, not blocked, and has the state its functor was built with: 1262-1281, 680-684 *)
| HO_snew c : handle_op x (VSlotNew c) [] [] [(length (v_us x), UsV true (Some (Impl c 0 true false 0)))] (OutId (length (v_us x)))
| HO_sempty : handle_op x VSlotEmpty [] [] [(length (v_us x), UsV true None)] (OutId (length (v_us x)))
(* the copy has its own flags and functor, equal to those of the original: 1284 *)
| HO_scopy u i : slot_is x u (Some i) ->
    handle_op x (VSlotCopy u) [] [] [(length (v_us x), UsV true (Some i))] (OutId (length (v_us x)))
| HO_smove u m : slot_is x u m ->
    handle_op x (VSlotMove u) [] [] [(length (v_us x), UsV true m); (u, UsV true None)] (OutId (length (v_us x)))
| HO_sassign d s md m : slot_is x d md -> slot_is x s m -> d <> s ->
    handle_op x (VSlotAssignMove d s) [] [] [(d, UsV true m); (s, UsV true None)] OutUnit
| HO_sself d m : slot_is x d m -> handle_op x (VSlotAssignMove d d) [] [] [] OutUnit
| HO_sdestroy u m : slot_is x u m -> handle_op x (VSlotDestroy u) [] [] [(u, UsV false None)] OutUnit
| HO_sbool u m : slot_is x u m -> handle_op x (VSlotBool u) [] [] [] (OutBool (bool_decide (m <> None)))
| HO_sblocked u m : slot_is x u m ->
    handle_op x (VSlotBlocked u) [] [] [] (OutBool (match m with Some i => im_blk i | None => false end))
| HO_sblock u c n b z k : slot_is x u (Some (Impl c n b k z)) ->
    handle_op x (VSlotBlock u) [] [] [(u, UsV true (Some (Impl c n b true z)))] OutUnit
| HO_sunblock u c n b z k : slot_is x u (Some (Impl c n b k z)) ->
    handle_op x (VSlotUnblock u) [] [] [(u, UsV true (Some (Impl c n b false z)))] OutUnit
| HO_sblock_empty u : slot_is x u None -> handle_op x (VSlotBlock u) [] [] [] OutUnit
| HO_sunblock_empty u : slot_is x u None -> handle_op x (VSlotUnblock u) [] [] [] OutUnit
| HO_sdisc u m : slot_is x u m -> handle_op x (VSlotDisc u) [] [] [] (OutBool false).
