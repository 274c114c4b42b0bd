(** NodeFixLen: byte-level model of the fixed-length node layout.

    Page layout (psl/node_fixlen.hpp:1225-1253): after the header, keys_[0..rc-1] are the
    record keys, keys_[rc] is the highest key if has_high_key_, and
    keys_[rc + has_high_key_] is the lowest key if has_low_key_.  Payloads grow down
    from the end of the page, payload i at page - (i+1)*pay_len.

    Every access is bounds-checked against the page (Mem.v); [None] means undefined
    behaviour.  Offsets use truncated subtraction; a negative offset becomes 0, which is
    inside the header and therefore refused.  Latch operations are not part of this
    file: they are modelled by the tree layers.  Where the pessimistic/optimistic or
    single-/multi-layer variants of a function differ, each has its own definition. *)
From Coq Require Import List Arith ZArith Bool.
From Verif Require Import Params Mem Common.
Import ListNotations.

Section FixModel.
Context {P : Params}.

(** psl/node_fixlen.hpp:1223-1253 (header fields; the latch is modelled elsewhere). *)
Record fnode := FNode {
  fn_inner : bool;
  fn_removed : bool;
  fn_block : nat;
  fn_rc : nat;
  fn_pl : nat;
  fn_next : option addr;
  fn_low : bool;
  fn_high : bool;
  fn_mem : mem;
}.

(** Address of keys_[i] and of payload i.  psl/node_fixlen.hpp:1061-1066. *)
Definition fk_off (i : nat) : nat := hdr + i * ks.
Definition fp_off (pl i : nat) : nat := page - (i + 1) * pl.

(** keys_[i] as a Key (psl/node_fixlen.hpp:254-259 GetKey). *)
Definition fx_key (n : fnode) (i : nat) : option K :=
  let? b := mrd (fn_mem n) (fk_off i) ks in dec_key b.

(** keys_[d] = src.keys_[s]: assignment of a trivially copyable key copies its bytes. *)
Definition fx_cpkey (dm : mem) (d : nat) (sm : mem) (s : nat) : option mem :=
  mmv dm (fk_off d) sm (fk_off s) ks.

(** keys_[i] = key. *)
Definition fx_setkey (m : mem) (i : nat) (k : K) : option mem :=
  if Nat.eqb (klen k) ks then mwr m (fk_off i) (enc_key k) else None.

(** memmove(&keys_[d], &keys_[s], kKeyLen * cnt). *)
Definition fx_mvkeys (m : mem) (d s cnt : nat) : option mem :=
  mmv m (fk_off d) m (fk_off s) (ks * cnt).

(** GetPayload<Payload>(pos), psl/node_fixlen.hpp:268-276. *)
Definition fx_payload (n : fnode) (i : nat) : option V :=
  let? b := mrd (fn_mem n) (fp_off (fn_pl n) i) plen in
  let? p := dec_pay b in
  match p with PV v => Some v | PP _ => None end.

(** GetPayload<Node *>(pos). *)
Definition fx_child (n : fnode) (i : nat) : option addr :=
  let? b := mrd (fn_mem n) (fp_off (fn_pl n) i) ptrlen in
  let? p := dec_pay b in
  match p with PP a => Some a | PV _ => None end.

(** memcpy(dst offset, payload, pay_len_); the source object must have that length. *)
Definition fx_wrpay (m : mem) (pl off : nat) (p : pay) : option mem :=
  if Nat.eqb (paylen p) pl then mwr m off (enc_pay p) else None.

(** SetPayload, psl/node_fixlen.hpp:1075-1083: returns the new offset as well. *)
Definition fx_setpayload (m : mem) (pl off : nat) (p : pay) : option (mem * nat) :=
  let off' := off - pl in
  let? m' := fx_wrpay m pl off' p in
  Some (m', off').

(** Empty node, psl/node_fixlen.hpp:68-71 (pay_len_ defaults to kPtrLen, :1235). *)
Definition fx_new (inner : bool) : fnode :=
  FNode inner false 0 0 ptrlen None false false mem_undef.

(** SetPayloadLength, psl/node_fixlen.hpp:241-245. *)
Definition fx_set_paylen (n : fnode) (pl : nat) : fnode :=
  FNode (fn_inner n) (fn_removed n) (fn_block n) (fn_rc n) pl (fn_next n)
        (fn_low n) (fn_high n) (fn_mem n).

(** New root with two children, psl/node_fixlen.hpp:81-96.  The multi-layer variant
    (pml/node_fixlen.hpp:81-89) reads l_node's highest key itself; its caller is
    modelled as passing that key. *)
Definition fx_root2 (k : K) (l r : addr) : option fnode :=
  let? m1 := fx_setkey mem_undef 1 k in
  let? (m2, _) := fx_setpayload m1 ptrlen page (PP l) in
  let? (m3, _) := fx_setpayload m2 ptrlen (page - ptrlen) (PP r) in
  Some (FNode true false (2 * ptrlen) 2 ptrlen None false false m3).

(** GetUsedSize, psl/node_fixlen.hpp:1032-1037. *)
Definition fx_used (n : fnode) : nat :=
  ks * (fn_rc n + b2n (fn_low n) + b2n (fn_high n)) + fn_block n.

(** GetNodeUsage, psl/node_fixlen.hpp:137-142. *)
Definition fx_usage (n : fnode) : nat := hdr + fn_rc n * ks + fn_block n.

(** kMaxUsedSpaceSize, psl/node_fixlen.hpp:1006. *)
Definition maxused : nat := page - (hdr + minfree).

(** SearchRecord, psl/node_fixlen.hpp:387-409. *)
Definition fx_search (n : fnode) (key : K) : option (node_rc * nat) :=
  let? (found, p) := bsearch (S (fn_rc n)) (fx_key n) key
                             (Z.of_nat (b2n (fn_inner n))) (Z.of_nat (fn_rc n) - 1) in
  if found : bool then Some (kKeyAlreadyInserted, Z.to_nat p)
  else Some (kKeyNotInserted, Z.to_nat (p - Z.of_nat (b2n (fn_inner n)))).

(** CompHighKey, psl/node_fixlen.hpp:1044-1049. *)
Definition fx_comphigh (n : fnode) (key : K) : option bool :=
  if fn_high n then
    let? h := fx_key n (fn_rc n) in Some (ltb key h)
  else Some true.

(** GetHighKey, psl/node_fixlen.hpp:216-221. *)
Definition fx_highkey (n : fnode) : option K := fx_key n (fn_rc n).

(** GetSeparatorKey, psl/node_fixlen.hpp:228-236. *)
Definition fx_sepkey (n : fnode) (is_left : bool) : option K :=
  if is_left then fx_highkey n else fx_key n (fn_rc n + b2n (fn_high n)).

(** IsRightmostOf, psl/node_fixlen.hpp:1017-1024. *)
Definition fx_rightmost (n : fnode) (e : option (K * bool)) : option bool :=
  match fn_next n with
  | None => Some true
  | Some _ =>
      match e with
      | None => Some false
      | Some (k, _) => fx_comphigh n k
      end
  end.

(** SearchEndPositionFor, psl/node_fixlen.hpp:436-451. *)
Definition fx_endpos (n : fnode) (e : option (K * bool)) : option (bool * nat) :=
  let? is_end := fx_rightmost n e in
  match is_end, e with
  | true, Some (k, closed) =>
      let? (rc, pos) := fx_search n k in
      Some (true, if node_rc_eqb rc kKeyAlreadyInserted && closed then pos + 1 else pos)
  | _, _ => Some (is_end, fn_rc n)
  end.

(** Read, psl/node_fixlen.hpp:527-543 (result only). *)
Definition fx_read (n : fnode) (key : K) : option (option V) :=
  let? (ex, pos) := fx_search n key in
  match ex with
  | kKeyAlreadyInserted => let? v := fx_payload n pos in Some (Some v)
  | _ => Some None
  end.

(** Body of InsertRecord without the space check: psl/node_fixlen.hpp:1108-1126,
    osl/node_fixlen.hpp InsertRecord, pml/node_fixlen.hpp:994-1016. *)
Definition fx_insert_record (n : fnode) (key : K) (p : pay) (pos : nat) : option fnode :=
  let move_num := fn_rc n - pos in
  let? m1 := fx_mvkeys (fn_mem n) (pos + 1) pos
                       (move_num + b2n (fn_low n) + b2n (fn_high n)) in
  let? m2 := fx_setkey m1 pos key in
  let top := page - fn_block n in
  let move_size := fn_pl n * move_num in
  let? m3 := mmv m2 (top - fn_pl n) m2 top move_size in
  let? (m4, _) := fx_setpayload m3 (fn_pl n) (top + move_size) p in
  Some (FNode (fn_inner n) (fn_removed n) (fn_block n + fn_pl n) (fn_rc n + 1) (fn_pl n)
              (fn_next n) (fn_low n) (fn_high n) m4).

(** Does a record of [rec_len] bytes not fit?  psl/node_fixlen.hpp:1105,
    pml/node_fixlen.hpp:134-140 NeedSplit. *)
Definition fx_need_split (n : fnode) (rec_len : nat) : bool :=
  page - hdr <? fx_used n + rec_len.

(** pml/node_fixlen.hpp:146-152 NeedMerge. *)
Definition fx_need_merge (n : fnode) : bool := fx_used n <? minused.

(** memcpy(GetPayloadAddr(pos), payload, pay_len_). *)
Definition fx_overwrite (n : fnode) (pos : nat) (p : pay) : option fnode :=
  let? m := fx_wrpay (fn_mem n) (fn_pl n) (fp_off (fn_pl n) pos) p in
  Some (FNode (fn_inner n) (fn_removed n) (fn_block n) (fn_rc n) (fn_pl n) (fn_next n)
              (fn_low n) (fn_high n) m).

(** Write, psl/node_fixlen.hpp:560-577 with InsertRecord :1098-1127. *)
Definition fx_write (n : fnode) (key : K) (v : V) : option (node_rc * fnode) :=
  let? (ex, pos) := fx_search n key in
  match ex with
  | kKeyNotInserted =>
      if fx_need_split n (ks + fn_pl n) then Some (kNeedSplit, n)
      else let? n' := fx_insert_record n key (PV v) pos in Some (kCompleted, n')
  | _ => let? n' := fx_overwrite n pos (PV v) in Some (kCompleted, n')
  end.

(** Insert, psl/node_fixlen.hpp:594-608. *)
Definition fx_insert (n : fnode) (key : K) (v : V) : option (node_rc * fnode) :=
  let? (ex, pos) := fx_search n key in
  match ex with
  | kKeyNotInserted =>
      if fx_need_split n (ks + fn_pl n) then Some (kNeedSplit, n)
      else let? n' := fx_insert_record n key (PV v) pos in Some (kCompleted, n')
  | _ => Some (kKeyAlreadyInserted, n)
  end.

(** Update, psl/node_fixlen.hpp:624-645. *)
Definition fx_update (n : fnode) (key : K) (v : V) : option (return_code * fnode) :=
  let? (ex, pos) := fx_search n key in
  match ex with
  | kKeyAlreadyInserted =>
      let? n' := fx_overwrite n pos (PV v) in Some (kSuccess, n')
  | _ => Some (kKeyNotExist, n)
  end.

(** The removal of record [pos]: psl/node_fixlen.hpp:671-679 (Delete), :775-787
    (DeleteChild; there pay_len_ = kPtrLen), pml/node_fixlen.hpp:636-646, :693-707. *)
Definition fx_remove (n : fnode) (pos : nat) : option fnode :=
  let move_num := fn_rc n - 1 - pos in
  let? m1 := fx_mvkeys (fn_mem n) pos (pos + 1)
                       (move_num + b2n (fn_low n) + b2n (fn_high n)) in
  let top := page - fn_block n in
  let? m2 := mmv m1 (top + fn_pl n) m1 top (fn_pl n * move_num) in
  Some (FNode (fn_inner n) (fn_removed n) (fn_block n - fn_pl n) (fn_rc n - 1) (fn_pl n)
              (fn_next n) (fn_low n) (fn_high n) m2).

(** Delete, psl/node_fixlen.hpp:659-689. *)
Definition fx_delete (n : fnode) (key : K) : option (node_rc * fnode) :=
  let? (ex, pos) := fx_search n key in
  match ex with
  | kKeyAlreadyInserted =>
      let? n' := fx_remove n pos in
      Some (if fx_used n' <? minused then kNeedMerge else kCompleted, n')
  | _ => Some (kKeyNotInserted, n)
  end.

(** Body of InsertChild: psl/node_fixlen.hpp:723-736, pml/node_fixlen.hpp:667-684:
    a new child with separator [sep] goes to position pos + 1. *)
Definition fx_insert_child_at (n : fnode) (r : addr) (sep : K) (pos : nat) : option fnode :=
  let move_num := fn_rc n - 1 - pos in
  let move_size := ptrlen * move_num in
  let top := page - fn_block n in
  let? m1 := mmv (fn_mem n) (top - ptrlen) (fn_mem n) top move_size in
  let? (m2, _) := fx_setpayload m1 (fn_pl n) (top + move_size) (PP r) in
  let? m3 := fx_mvkeys m2 (pos + 2) (pos + 1)
                       (move_num + b2n (fn_low n) + b2n (fn_high n)) in
  let? m4 := fx_setkey m3 (pos + 1) sep in
  Some (FNode (fn_inner n) (fn_removed n) (fn_block n + ptrlen) (fn_rc n + 1) (fn_pl n)
              (fn_next n) (fn_low n) (fn_high n) m4).

(** InsertChild, psl/node_fixlen.hpp:701-741. *)
Definition fx_insert_child (n : fnode) (r : addr) (sep : K) : option (node_rc * fnode) :=
  let? (ex, pos) := fx_search n sep in
  match ex with
  | kKeyAlreadyInserted => Some (kNeedRetry, n)
  | _ =>
      if page - hdr <? fx_used n + (klen sep + ptrlen) then Some (kNeedSplit, n)
      else let? n' := fx_insert_child_at n r sep pos in Some (kCompleted, n')
  end.

(** DeleteChild, psl/node_fixlen.hpp:754-795. *)
Definition fx_delete_child (n : fnode) (del_key : K) : option (node_rc * fnode) :=
  let? abort :=
    (if fn_rc n <=? 1 then Some true
     else let? k1 := fx_key n 1 in Some (ltb del_key k1)) in
  if abort : bool then Some (kAbortMerge, n)
  else
    let? (ex, pos) := fx_search n del_key in
    match ex with
    | kKeyNotInserted => Some (kNeedRetry, n)
    | _ =>
        let? n' := fx_remove n pos in
        Some (if fx_used n' <? minused then kNeedMerge else kCompleted, n')
    end.

(** DeleteChild by position, pml/node_fixlen.hpp:690-709: removes record pos + 1. *)
Definition fx_delete_child_at (n : fnode) (pos : nat) : option fnode :=
  fx_remove n (pos + 1).

(** CopyRecordFrom, psl/node_fixlen.hpp:1139-1152. *)
Definition fx_copy_record (d s : fnode) (pos off : nat) : option (fnode * nat) :=
  let? m1 := fx_cpkey (fn_mem d) (fn_rc d) (fn_mem s) pos in
  let off' := off - fn_pl d in
  let? m2 := mmv m1 off' (fn_mem s) (fp_off (fn_pl s) pos) (fn_pl d) in
  Some (FNode (fn_inner d) (fn_removed d) (fn_block d) (fn_rc d + 1) (fn_pl d) (fn_next d)
              (fn_low d) (fn_high d) m2, off').

(** CopyRecordsFrom, psl/node_fixlen.hpp:1163-1178: [cnt] records from position [i]. *)
Fixpoint fx_copy_records (cnt : nat) (d s : fnode) (i off : nat) : option (fnode * nat) :=
  match cnt with
  | O => Some (d, off)
  | S cnt' =>
      let? (d', off') := fx_copy_record d s i off in
      fx_copy_records cnt' d' s (i + 1) off'
  end.

(** Split, right half: psl/node_fixlen.hpp:811-822, pml/node_fixlen.hpp:724-738.
    [set_next] is false exactly for inner nodes of the multi-layer variants. *)
Definition fx_split_right (l r : fnode) (set_next : bool) : option fnode :=
  let l_count := Nat.div (fn_rc l) 2 in
  let r_count := fn_rc l - l_count in
  let? (r1, off) := fx_copy_records (fn_rc l - l_count) (fx_set_paylen r (fn_pl l)) l
                                    l_count page in
  let? m1 := fx_cpkey (fn_mem r1) r_count (fn_mem l) (fn_rc l) in
  let? m2 := fx_cpkey m1 (r_count + b2n (fn_high l)) m1 0 in
  Some (FNode (fn_inner r1) (fn_removed r1) (page - off) (fn_rc r1) (fn_pl r1)
              (if set_next then fn_next l else fn_next r1) true (fn_high l) m2).

(** Split (single-layer), psl/node_fixlen.hpp:805-840.  Returns the left and right node. *)
Definition fx_split_sl (l : fnode) (r_addr : addr) (r : fnode) : option (fnode * fnode) :=
  let l_count := Nat.div (fn_rc l) 2 in
  let? r' := fx_split_right l r true in
  let? m1 := fx_cpkey (fn_mem l) (l_count + b2n (fn_low l))
                      (fn_mem l) (fn_rc l + b2n (fn_high l)) in
  let? m2 := fx_cpkey m1 l_count (fn_mem r') 0 in
  Some (FNode (fn_inner l) (fn_removed l) (fn_block l - fn_block r') l_count (fn_pl l)
              (Some r_addr) (fn_low l) true m2, r').

(** Split (multi-layer), pml/node_fixlen.hpp:719-757: the header is updated before the
    lowest key is copied, so the copy reads keys_[l_count + 1]; siblings are linked on
    the leaf level only. *)
Definition fx_split_ml (l : fnode) (r_addr : addr) (r : fnode) : option (fnode * fnode) :=
  let l_count := Nat.div (fn_rc l) 2 in
  let? r' := fx_split_right l r (negb (fn_inner l)) in
  let? m1 := fx_cpkey (fn_mem l) (l_count + b2n (fn_low l)) (fn_mem l) (l_count + 1) in
  let? m2 := fx_cpkey m1 l_count (fn_mem r') 0 in
  Some (FNode (fn_inner l) (fn_removed l) (fn_block l - fn_block r') l_count (fn_pl l)
              (if fn_inner l then fn_next l else Some r_addr) (fn_low l) true m2, r').

(** Common part of Merge: psl/node_fixlen.hpp:849-866, pml/node_fixlen.hpp:767-785.
    [low_pos] is the index from which the lowest key is saved. *)
Definition fx_merge_into (l r : fnode) (low_pos : nat) (set_next : bool) : option fnode :=
  let? low_bytes := mrd (fn_mem l) (fk_off low_pos) ks in
  let? (l1, off) := fx_copy_records (fn_rc r) l r 0 (page - fn_block l) in
  let? m1 := (if fn_high r then fx_cpkey (fn_mem l1) (fn_rc l1) (fn_mem r) (fn_rc r)
              else Some (fn_mem l1)) in
  let? m2 := (if fn_low l then mwr m1 (fk_off (fn_rc l1 + b2n (fn_high r))) low_bytes
              else Some m1) in
  Some (FNode (fn_inner l) (fn_removed l) (page - off) (fn_rc l1) (fn_pl l)
              (if set_next then fn_next r else fn_next l) (fn_low l) (fn_high r) m2).

(** Merge (single-layer), psl/node_fixlen.hpp:847-876: the right node is marked removed
    and its next pointer redirected to the left node. *)
Definition fx_merge_sl (l_addr : addr) (l r : fnode) : option (fnode * fnode) :=
  let? l' := fx_merge_into l r (fn_rc l + 1) true in
  Some (l', FNode (fn_inner r) true (fn_block r) (fn_rc r) (fn_pl r) (Some l_addr)
                  (fn_low r) (fn_high r) (fn_mem r)).

(** Merge (PML), pml/node_fixlen.hpp:762-789: the caller deletes the right node. *)
Definition fx_merge_ml (l r : fnode) : option fnode :=
  fx_merge_into l r (fn_rc l + b2n (fn_high l) + b2n (fn_low l) - 1) (negb (fn_inner l)).

(** RemoveRoot, psl/node_fixlen.hpp:882-899: header update only. *)
Definition fx_remove_root (n : fnode) : fnode :=
  FNode (fn_inner n) true (fn_block n) (fn_rc n) (fn_pl n) None (fn_low n) (fn_high n)
        (fn_mem n).

(** Mergeability of two siblings: psl/node_fixlen.hpp:204-209, pml/node_fixlen.hpp:158-163. *)
Definition fx_can_merge (l r : fnode) : bool := fx_used l + fx_used r <? maxused.

End FixModel.
