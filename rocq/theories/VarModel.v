(** NodeVarLen: byte-level model of the variable-length node layout.

    Page layout (psl/node_varlen.hpp:1570-1612): after the header, meta_array_[0..rc-1]
    (8 bytes each) grows up; the record block grows down from the end of the page.  A
    record is its key followed by its payload; the lowest key sits at l_key_offset_ (the
    very end of the page), the highest key at h_key_offset_; a length of 0 means absent.

    Every access is bounds-checked against the page (Mem.v); [None] means undefined
    behaviour.  Offsets use truncated subtraction; a negative offset becomes 0, which is
    inside the header and therefore refused.  Latches are modelled by the tree layers.
    The bit widths of the header fields and of Metadata are not modelled here (see
    MetaBits.v); keys are read and written with their key_len, which for fixed-size keys
    equals sizeof(Key).  The thread-local temp_node_ used by clean-up, split and merge is
    modelled as a fresh page each time: the code resets its record count after use and
    never reads bytes it has not written in the same operation (a read of unwritten bytes
    is undefined behaviour in the model, so this is checked, not assumed). *)
From Coq Require Import List Arith ZArith Bool.
From Verif Require Import Params Mem Common.
Import ListNotations.

Section VarModel.
Context {P : Params}.

(** psl/node_varlen.hpp:1570-1605 (header fields; the latch is modelled elsewhere). *)
Record vnode := VNode {
  vn_inner : bool;
  vn_removed : bool;
  vn_block : nat;
  vn_deleted : nat;
  vn_rc : nat;
  vn_next : option addr;
  vn_loff : nat;
  vn_llen : nat;
  vn_hoff : nat;
  vn_hlen : nat;
  vn_mem : mem;
}.

(** Empty node, psl/node_varlen.hpp:70-73 and the member initialisers :1580-1605. *)
Definition vx_new (inner : bool) : vnode :=
  VNode inner false 0 0 0 None page 0 page 0 mem_undef.

(** Address of meta_array_[i]. *)
Definition vm_off (i : nat) : nat := hdr + i * metalen.

(** meta_array_[i] as an rvalue. *)
Definition vx_meta (m : mem) (i : nat) : option meta :=
  let? b := mrd m (vm_off i) metalen in dec_meta b.

(** meta_array_[i] = mt. *)
Definition vx_setmeta (m : mem) (i : nat) (mt : meta) : option mem :=
  mwr m (vm_off i) (enc_meta mt).

(** memmove(&meta_array_[d], &meta_array_[s], kMetaLen * cnt). *)
Definition vx_mvmeta (m : mem) (d s cnt : nat) : option mem :=
  mmv m (vm_off d) m (vm_off s) (metalen * cnt).

(** GetKey(Metadata), psl/node_varlen.hpp:1247-1263. *)
Definition vx_mkey (m : mem) (mt : meta) : option K :=
  let? b := mrd m (md_off mt) (md_klen mt) in dec_key b.

(** GetKey(pos), psl/node_varlen.hpp:284-289. *)
Definition vx_key (n : vnode) (i : nat) : option K :=
  let? mt := vx_meta (vn_mem n) i in vx_mkey (vn_mem n) mt.

(** GetPayload<Payload>(meta), psl/node_varlen.hpp:1282-1289. *)
Definition vx_mpay (m : mem) (mt : meta) : option V :=
  let? b := mrd m (md_off mt + md_klen mt) plen in
  let? p := dec_pay b in
  match p with PV v => Some v | PP _ => None end.

(** GetPayload<Node *>(pos), psl/node_varlen.hpp:296-302. *)
Definition vx_child (n : vnode) (i : nat) : option addr :=
  let? mt := vx_meta (vn_mem n) i in
  let? b := mrd (vn_mem n) (md_off mt + md_klen mt) ptrlen in
  let? p := dec_pay b in
  match p with PP a => Some a | PV _ => None end.

(** RecordIsDeleted and GetRecord, psl/node_varlen.hpp:330-349. *)
Definition vx_recdel (n : vnode) (i : nat) : option bool :=
  let? mt := vx_meta (vn_mem n) i in Some (md_del mt).
Definition vx_record (n : vnode) (i : nat) : option (K * V) :=
  let? mt := vx_meta (vn_mem n) i in
  let? k := vx_mkey (vn_mem n) mt in
  let? v := vx_mpay (vn_mem n) mt in Some (k, v).

(** SetKey and SetPayload, psl/node_varlen.hpp:1299-1334: the new offset is returned. *)
Definition vx_setkey (m : mem) (off : nat) (k : K) : option (mem * nat) :=
  let off' := off - klen k in
  let? m' := mwr m off' (enc_key k) in Some (m', off').
Definition vx_setpay (m : mem) (off : nat) (p : pay) : option (mem * nat) :=
  let off' := off - paylen p in
  let? m' := mwr m off' (enc_pay p) in Some (m', off').

(** New root with two children, psl/node_varlen.hpp:83-101.  The multi-layer variants
    (pml/node_varlen.hpp:79-99) read l_node's highest key themselves; their callers are
    modelled as passing that key. *)
Definition vx_root2 (k : K) (l r : addr) : option vnode :=
  let? (m1, o1) := vx_setpay mem_undef page (PP l) in
  let? m2 := vx_setmeta m1 0 (Meta false o1 0 ptrlen) in
  let? (m3, o2) := vx_setpay m2 o1 (PP r) in
  let? (m4, o3) := vx_setkey m3 o2 k in
  let? m5 := vx_setmeta m4 1 (Meta false o3 (klen k) (klen k + ptrlen)) in
  Some (VNode true false (page - o3) 0 2 None page 0 page 0 m5).

(** GetUsedSize, psl/node_varlen.hpp:1176-1181. *)
Definition vx_used (n : vnode) : nat := metalen * vn_rc n + vn_block n - vn_deleted n.

(** GetNodeUsage, psl/node_varlen.hpp:147-152. *)
Definition vx_usage (n : vnode) : nat := hdr + vn_rc n * metalen + vn_block n.

(** kMaxUsedSpaceSize, psl/node_varlen.hpp:1104. *)
Definition vmaxused : nat := page - (hdr + minfree).

(** SearchRecord, psl/node_varlen.hpp:410-430. *)
Definition vx_search (n : vnode) (key : K) : option (node_rc * nat) :=
  let? (found, p) := bsearch (S (vn_rc n)) (vx_key n) key
                             (Z.of_nat (b2n (vn_inner n))) (Z.of_nat (vn_rc n) - 1) in
  if found : bool then
    let? d := vx_recdel n (Z.to_nat p) in
    Some (if d : bool then kKeyAlreadyDeleted else kKeyAlreadyInserted, Z.to_nat p)
  else Some (kKeyNotInserted, Z.to_nat (p - Z.of_nat (b2n (vn_inner n)))).

(** GetHighKey, psl/node_varlen.hpp:223-239. *)
Definition vx_highkey (n : vnode) : option K :=
  let? b := mrd (vn_mem n) (vn_hoff n) (vn_hlen n) in dec_key b.

(** CompHighKey, psl/node_varlen.hpp:1208-1226. *)
Definition vx_comphigh (n : vnode) (key : K) : option bool :=
  if vn_hlen n =? 0 then Some true
  else let? h := vx_highkey n in Some (ltb key h).

(** GetSeparatorKey, psl/node_varlen.hpp:246-274. *)
Definition vx_sepkey (n : vnode) (is_left : bool) : option K :=
  if is_left then vx_highkey n
  else let? b := mrd (vn_mem n) (vn_loff n) (vn_llen n) in dec_key b.

(** IsRightmostOf, psl/node_varlen.hpp:1114-1121. *)
Definition vx_rightmost (n : vnode) (e : option (K * bool)) : option bool :=
  match vn_next n with
  | None => Some true
  | Some _ =>
      match e with
      | None => Some false
      | Some (k, _) => vx_comphigh n k
      end
  end.

(** SearchEndPositionFor, psl/node_varlen.hpp:459-475. *)
Definition vx_endpos (n : vnode) (e : option (K * bool)) : option (bool * nat) :=
  let? is_end := vx_rightmost n e in
  match is_end, e with
  | true, Some (k, closed) =>
      let? (rc, pos) := vx_search n k in
      Some (true, if node_rc_eqb rc kKeyAlreadyInserted && closed then pos + 1 else pos)
  | _, _ => Some (is_end, vn_rc n)
  end.

(** Read, psl/node_varlen.hpp:548-564 (result only). *)
Definition vx_read (n : vnode) (key : K) : option (option V) :=
  let? (ex, pos) := vx_search n key in
  match ex with
  | kKeyAlreadyInserted =>
      let? mt := vx_meta (vn_mem n) pos in
      let? v := vx_mpay (vn_mem n) mt in Some (Some v)
  | _ => Some None
  end.

(** ** Copying between pages *)

(** CopyKeyFrom, psl/node_varlen.hpp:1438-1452. *)
Definition vx_copykey (dm sm : mem) (mt : meta) (off : nat) : option (mem * nat) :=
  let off' := off - md_klen mt in
  let? m := mmv dm off' sm (md_off mt) (md_klen mt) in Some (m, off').

(** CopyLowKeyFrom, psl/node_varlen.hpp:1459-1473 (offset and length are returned to the
    caller; only the temporary node stores them, and nobody reads them there). *)
Definition vx_copylow (dm : mem) (s : vnode) : option (mem * nat) :=
  if 0 <? vn_llen s then
    let off := page - vn_llen s in
    let? m := mmv dm off (vn_mem s) (vn_loff s) (vn_llen s) in Some (m, off)
  else Some (dm, page).

(** CopyHighKeyFrom, psl/node_varlen.hpp:1482-1495. *)
Definition vx_copyhigh (dm : mem) (s : vnode) (off : nat) : option (mem * nat) :=
  if 0 <? vn_hlen s then
    let off' := off - vn_hlen s in
    let? m := mmv dm off' (vn_mem s) (vn_hoff s) (vn_hlen s) in Some (m, off')
  else Some (dm, off).

(** CopyRecordFrom, psl/node_varlen.hpp:1505-1521: destination memory, its record count
    and the offset. *)
Definition vx_copyrec (dm : mem) (cnt : nat) (sm : mem) (mt : meta) (off : nat)
  : option (mem * nat) :=
  let off' := off - md_rlen mt in
  let? m1 := mmv dm off' sm (md_off mt) (md_rlen mt) in
  let? m2 := vx_setmeta m1 cnt (Meta false off' (md_klen mt) (md_rlen mt)) in
  Some (m2, off').

(** CopyRecordsFrom, psl/node_varlen.hpp:1532-1549: [todo] records from position [i];
    deleted records are skipped.  Result: memory, record count, offset. *)
Fixpoint vx_copyrecs (todo : nat) (dm : mem) (cnt : nat) (sm : mem) (i off : nat)
  : option (mem * nat * nat) :=
  match todo with
  | O => Some (dm, cnt, off)
  | S todo' =>
      let? mt := vx_meta sm i in
      if md_del mt then vx_copyrecs todo' dm cnt sm (i + 1) off
      else
        let? (m, off') := vx_copyrec dm cnt sm mt off in
        vx_copyrecs todo' m (cnt + 1) sm (i + 1) off'
  end.

(** memcpy(meta_array_, temp->meta_array_, kMetaLen * rc);
    memcpy(ShiftAddr(this, off), ShiftAddr(temp, off), kPageSize - off). *)
Definition vx_reflect (m tm : mem) (rc off : nat) : option mem :=
  let? m1 := mmv m (vm_off 0) tm (vm_off 0) (metalen * rc) in
  mmv m1 off tm off (page - off).

(** CleanUp, psl/node_varlen.hpp:1407-1428, pml/node_varlen.hpp:1198-1216. *)
Definition vx_cleanup (n : vnode) : option vnode :=
  let? (t1, o1) := vx_copylow mem_undef n in
  let? (t2, o2) := vx_copyhigh t1 n o1 in
  let? (t3, rc, off) := vx_copyrecs (vn_rc n) t2 0 (vn_mem n) 0 o2 in
  let? m := vx_reflect (vn_mem n) t3 rc off in
  Some (VNode (vn_inner n) (vn_removed n) (page - off) 0 rc (vn_next n)
              (vn_loff n) (vn_llen n) o2 (vn_hlen n) m).

(** ** Leaf writes *)

(** NeedSplit, psl/node_varlen.hpp:1147-1153. *)
Definition vx_need_split (n : vnode) (new_len : nat) : bool :=
  page - hdr <? metalen * (vn_rc n + 1) + vn_block n + new_len.

(** NeedCleanUp, osl/node_varlen.hpp:1306-1314; the condition of CleanUpIfNeeded,
    psl/node_varlen.hpp:1131-1134. *)
Definition vx_need_cleanup (n : vnode) (new_len : nat) : bool :=
  let total := metalen * (vn_rc n + 1) + vn_block n + new_len in
  (page - hdr <? total) && (total - vn_deleted n <=? vmaxused).

(** CleanUpIfNeeded, psl/node_varlen.hpp:1128-1140. *)
Definition vx_cleanup_if (n : vnode) (new_len : nat) : option vnode :=
  if vx_need_cleanup n new_len then vx_cleanup n else Some n.

(** NeedMerge, psl/node_varlen.hpp:1160-1170 (pml/node_varlen.hpp:155-167): may clean up. *)
Definition vx_need_merge (n : vnode) : option (bool * vnode) :=
  if vx_used n <? minused then Some (true, n)
  else if vn_deleted n <=? maxdel then Some (false, n)
  else let? n' := vx_cleanup n in Some (false, n').

(** Body of InsertRecord without the space check (psl/node_varlen.hpp:1366-1376,
    osl/node_varlen.hpp:799-808, pml/node_varlen.hpp:1158-1168) and of InsertChild
    (psl/node_varlen.hpp:764-772): the record goes to position [pos]. *)
Definition vx_insert_at (n : vnode) (key : K) (p : pay) (pos : nat) : option vnode :=
  let rec_len := klen key + paylen p in
  let? (m1, o1) := vx_setpay (vn_mem n) (page - vn_block n) p in
  let? (m2, o2) := vx_setkey m1 o1 key in
  let? m3 := vx_mvmeta m2 (pos + 1) pos (vn_rc n - pos) in
  let? m4 := vx_setmeta m3 pos (Meta false o2 (klen key) rec_len) in
  Some (VNode (vn_inner n) (vn_removed n) (vn_block n + rec_len) (vn_deleted n) (vn_rc n + 1)
              (vn_next n) (vn_loff n) (vn_llen n) (vn_hoff n) (vn_hlen n) m4).

(** memcpy(GetPayloadAddr(meta_array_[pos]), payload, pay_len). *)
Definition vx_overwrite (n : vnode) (pos : nat) (p : pay) : option vnode :=
  let? mt := vx_meta (vn_mem n) pos in
  let? m := mwr (vn_mem n) (md_off mt + md_klen mt) (enc_pay p) in
  Some (VNode (vn_inner n) (vn_removed n) (vn_block n) (vn_deleted n) (vn_rc n) (vn_next n)
              (vn_loff n) (vn_llen n) (vn_hoff n) (vn_hlen n) m).

(** ReuseRecord, psl/node_varlen.hpp:1388-1401. *)
Definition vx_reuse (n : vnode) (pos : nat) (p : pay) : option vnode :=
  let? mt := vx_meta (vn_mem n) pos in
  let? m1 := vx_setmeta (vn_mem n) pos (Meta false (md_off mt) (md_klen mt) (md_rlen mt)) in
  let? m2 := mwr m1 (md_off mt + md_klen mt) (enc_pay p) in
  Some (VNode (vn_inner n) (vn_removed n) (vn_block n)
              (vn_deleted n - (md_rlen mt + metalen)) (vn_rc n) (vn_next n)
              (vn_loff n) (vn_llen n) (vn_hoff n) (vn_hlen n) m2).

(** Write, psl/node_varlen.hpp:584-612, osl/node_varlen.hpp:683-717. *)
Definition vx_write (n0 : vnode) (key : K) (v : V) : option (node_rc * vnode) :=
  let rec_len := klen key + plen in
  let? n := vx_cleanup_if n0 rec_len in
  let? (ex, pos) := vx_search n key in
  match ex with
  | kKeyNotInserted =>
      if vx_need_split n rec_len then Some (kNeedSplit, n)
      else let? n' := vx_insert_at n key (PV v) pos in Some (kCompleted, n')
  | kKeyAlreadyDeleted => let? n' := vx_reuse n pos (PV v) in Some (kCompleted, n')
  | _ => let? n' := vx_overwrite n pos (PV v) in Some (kCompleted, n')
  end.

(** Insert, psl/node_varlen.hpp:628-655, osl/node_varlen.hpp:735-777. *)
Definition vx_insert (n0 : vnode) (key : K) (v : V) : option (node_rc * vnode) :=
  let rec_len := klen key + plen in
  let? n := vx_cleanup_if n0 rec_len in
  let? (ex, pos) := vx_search n key in
  match ex with
  | kKeyNotInserted =>
      if vx_need_split n rec_len then Some (kNeedSplit, n)
      else let? n' := vx_insert_at n key (PV v) pos in Some (kCompleted, n')
  | kKeyAlreadyInserted => Some (kKeyAlreadyInserted, n)
  | _ => let? n' := vx_reuse n pos (PV v) in Some (kCompleted, n')
  end.

(** osl/b_tree.hpp:192-193, 230-231: SearchRecord and the unchecked InsertRecord. *)
Definition vx_search_insert (n : vnode) (key : K) (v : V) : option (node_rc * vnode) :=
  let? (_, pos) := vx_search n key in
  let? n' := vx_insert_at n key (PV v) pos in
  Some (kCompleted, n').

(** Update, psl/node_varlen.hpp:669-691. *)
Definition vx_update (n : vnode) (key : K) (v : V) : option (return_code * vnode) :=
  let? (ex, pos) := vx_search n key in
  match ex with
  | kKeyAlreadyInserted =>
      let? n' := vx_overwrite n pos (PV v) in Some (kSuccess, n')
  | _ => Some (kKeyNotExist, n)
  end.

(** The tombstone of Delete, psl/node_varlen.hpp:718-719. *)
Definition vx_tomb (n : vnode) (pos : nat) : option vnode :=
  let? mt := vx_meta (vn_mem n) pos in
  let? m := vx_setmeta (vn_mem n) pos (Meta true (md_off mt) (md_klen mt) (md_rlen mt)) in
  Some (VNode (vn_inner n) (vn_removed n) (vn_block n) (vn_deleted n + (md_rlen mt + metalen))
              (vn_rc n) (vn_next n) (vn_loff n) (vn_llen n) (vn_hoff n) (vn_hlen n) m).

(** Delete, psl/node_varlen.hpp:704-727. *)
Definition vx_delete (n : vnode) (key : K) : option (node_rc * vnode) :=
  let? (ex, pos) := vx_search n key in
  match ex with
  | kKeyAlreadyInserted =>
      let? n1 := vx_tomb n pos in
      let? (nm, n2) := vx_need_merge n1 in
      Some (if nm : bool then kNeedMerge else kCompleted, n2)
  | _ => Some (kKeyNotInserted, n)
  end.

(** ** Inner nodes *)

(** InsertChild, psl/node_varlen.hpp:739-777. *)
Definition vx_insert_child (n0 : vnode) (r : addr) (sep : K) : option (node_rc * vnode) :=
  let rec_len := klen sep + ptrlen in
  let? n := vx_cleanup_if n0 rec_len in
  let? (ex, pos) := vx_search n sep in
  match ex with
  | kKeyAlreadyInserted => Some (kNeedRetry, n)
  | _ =>
      if vx_need_split n rec_len then Some (kNeedSplit, n)
      else let? n' := vx_insert_at n sep (PP r) (pos + 1) in Some (kCompleted, n')
  end.

(** Removal of an index entry, psl/node_varlen.hpp:807-813, pml/node_varlen.hpp:690-697. *)
Definition vx_remove (n : vnode) (pos : nat) : option vnode :=
  let? mt := vx_meta (vn_mem n) pos in
  let? m := vx_mvmeta (vn_mem n) pos (pos + 1) (vn_rc n - 1 - pos) in
  Some (VNode (vn_inner n) (vn_removed n) (vn_block n) (vn_deleted n + md_rlen mt)
              (vn_rc n - 1) (vn_next n) (vn_loff n) (vn_llen n) (vn_hoff n) (vn_hlen n) m).

(** DeleteChild, psl/node_varlen.hpp:787-822. *)
Definition vx_delete_child (n : vnode) (del_key : K) : option (node_rc * vnode) :=
  let? abort :=
    (if vn_rc n <=? 1 then Some true
     else let? k1 := vx_key n 1 in Some (ltb del_key k1)) in
  if abort : bool then Some (kAbortMerge, n)
  else
    let? (ex, pos) := vx_search n del_key in
    match ex with
    | kKeyNotInserted => Some (kNeedRetry, n)
    | _ =>
        let? n1 := vx_remove n pos in
        let? (nm, n2) := vx_need_merge n1 in
        Some (if nm : bool then kNeedMerge else kCompleted, n2)
    end.

(** ** Structure modifications *)

(** Left half of Split, psl/node_varlen.hpp:847-855: copy live records while used_size is
    below half_size.  Result: memory, record count, offset and [pos].  The loop of the code
    has no other bound, so the fuel is the page size: reading a metadata entry past the end
    of the page is undefined behaviour. *)
Fixpoint vx_split_loop (fuel : nat) (dm : mem) (cnt : nat) (sm : mem) (i off used half : nat)
  : option (mem * nat * nat * nat) :=
  if used <? half then
    match fuel with
    | O => None
    | S fuel' =>
        let? mt := vx_meta sm i in
        if md_del mt then vx_split_loop fuel' dm cnt sm (i + 1) off used half
        else
          let? (m, off') := vx_copyrec dm cnt sm mt off in
          vx_split_loop fuel' m (cnt + 1) sm (i + 1) off' (used + (md_rlen mt + metalen)) half
    end
  else Some (dm, cnt, off, i).

(** Split, psl/node_varlen.hpp:834-905 ([ml] = false) and pml/node_varlen.hpp:710-769,
    oml/node_varlen.hpp:968-1024 ([ml] = true: inner nodes are not linked).  The separator
    bytes reach the right node via the temporary node in the single-layer variant and
    directly from meta_array_[pos] in the multi-layer ones; the bytes are the same. *)
Definition vx_split (ml : bool) (l : vnode) (r_addr : addr) (r : vnode)
  : option (vnode * vnode) :=
  let half := (metalen * vn_rc l + vn_block l - vn_deleted l) / 2 in
  let link := negb (ml && vn_inner l) in
  let? (t1, o1) := vx_copylow mem_undef l in
  let? (t2, lrc, o2, pos) := vx_split_loop page t1 0 (vn_mem l) 0 o1 0 half in
  let? smt := vx_meta (vn_mem l) pos in
  let? (t3, o3) := vx_copykey t2 (vn_mem l) smt o2 in
  let? (r1, ro1) := (if ml then vx_copykey (vn_mem r) (vn_mem l) smt page
                     else let ro := page - md_klen smt in
                          let? m := (if 0 <? md_klen smt then mmv (vn_mem r) ro t3 o3 (md_klen smt)
                                     else Some (vn_mem r)) in
                          Some (m, ro)) in
  let? (r2, ro2) := vx_copyhigh r1 l ro1 in
  let? (r3, rrc, ro3) := vx_copyrecs (vn_rc l - pos) r2 (vn_rc r) (vn_mem l) pos ro2 in
  let? m := vx_reflect (vn_mem l) t3 lrc o3 in
  Some (VNode (vn_inner l) (vn_removed l) (page - o3) 0 lrc
              (if link then Some r_addr else vn_next l)
              (vn_loff l) (vn_llen l) o3 (md_klen smt) m,
        VNode (vn_inner r) (vn_removed r) (page - ro3) (vn_deleted r) rrc
              (if link then vn_next l else vn_next r)
              ro1 (md_klen smt) ro2 (vn_hlen l) r3).

(** Merge, psl/node_varlen.hpp:912-952, pml/node_varlen.hpp:774-806,
    oml/node_varlen.hpp:1031-1073: the merged left node. *)
Definition vx_merge_into (ml : bool) (l r : vnode) : option vnode :=
  let link := negb (ml && vn_inner l) in
  let? (t1, o1) := vx_copylow mem_undef l in
  let? (t2, o2) := vx_copyhigh t1 r o1 in
  let? (t3, rc, o3) := vx_copyrecs (vn_rc l) t2 0 (vn_mem l) 0 o2 in
  let? m1 := vx_reflect (vn_mem l) t3 rc o3 in
  let? (m2, rc2, o4) := vx_copyrecs (vn_rc r) m1 rc (vn_mem r) 0 o3 in
  Some (VNode (vn_inner l) (vn_removed l) (page - o4) 0 rc2
              (if link then vn_next r else vn_next l)
              (vn_loff l) (vn_llen l) o2 (vn_hlen r) m2).

(** Merge (single-layer): the right node is marked removed and redirected to the left one,
    psl/node_varlen.hpp:942-947. *)
Definition vx_merge_sl (l_addr : addr) (l r : vnode) : option (vnode * vnode) :=
  let? l' := vx_merge_into false l r in
  Some (l', VNode (vn_inner r) true (vn_block r) (vn_deleted r) (vn_rc r) (Some l_addr)
                  (vn_loff r) (vn_llen r) (vn_hoff r) (vn_hlen r) (vn_mem r)).

(** RemoveRoot, psl/node_varlen.hpp:958-974: header update only. *)
Definition vx_remove_root (n : vnode) : vnode :=
  VNode (vn_inner n) true (vn_block n) (vn_deleted n) (vn_rc n) None
        (vn_loff n) (vn_llen n) (vn_hoff n) (vn_hlen n) (vn_mem n).

(** Mergeability, psl/node_varlen.hpp:209, pml/node_varlen.hpp:316. *)
Definition vx_can_merge (l r : vnode) : bool := vx_used l + vx_used r <? vmaxused.

End VarModel.
