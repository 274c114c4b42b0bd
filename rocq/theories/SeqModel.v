(** Optimistic reads: pages at field granularity, the optimistic latch, writers and one
    unlatched reader.

    The other models treat one validated read of a page as atomic.  Here the read is
    taken apart: the reader loads the version, then reads header fields and bytes one at
    a time (which ones may depend on what it has read so far), then compares versions.
    Any number of writer threads run meanwhile, one action at a time.

    Modelled code: the latch operations inside component/{osl,oml}/node_{fixlen,varlen}.hpp
    and component/{osl,oml}/b_tree.hpp.  The latch itself
    (::dbgroup::lock::OptimisticLock) is not in the repository; its contract is taken to
    be: one owner in SIX or X mode, any number of S holders unless X is held; GetVersion
    waits until X is not held and returns the version; HasSameVersion(v) is true iff the
    version is v and X is not held; TryLock*(v) succeeds only if the version is v;
    UnlockX and DowngradeToSIX increment the version.  Simplifications: versions do not
    wrap around; accesses are sequentially consistent; a page is constructed at most once
    (the epoch-based garbage collector, not in the repository, does not give a page back
    while a reader may hold its address). *)
From Coq Require Import List Arith ZArith Bool.
From Verif Require Import Params Mem Common FixModel VarModel.
Import ListNotations.

Section SeqModel.
Context {P : Params}.

(** ** Fields of a page *)

(** Header fields of osl/node_fixlen.hpp:1344-1379, osl/node_varlen.hpp:1708-1751,
    oml/node_fixlen.hpp:1440 ff. and oml/node_varlen.hpp:1743 ff., and the bytes after the header. *)
Inductive fld :=
| HInner | HRemoved | HBlock | HDeleted | HCount | HPayLen | HNext
| HHasLow | HHasHigh | HLowOff | HLowLen | HHighOff | HHighLen
| Byte (o : nat).

Inductive val :=
| VB (b : bool)
| VN (n : nat)
| VA (a : option addr)
| VC (c : cell).

Definition fields := fld -> val.

(** The fields of the two layouts. *)
Definition ffields (n : fnode) : fields := fun f =>
  match f with
  | HInner => VB (fn_inner n) | HRemoved => VB (fn_removed n) | HBlock => VN (fn_block n)
  | HCount => VN (fn_rc n) | HPayLen => VN (fn_pl n) | HNext => VA (fn_next n)
  | HHasLow => VB (fn_low n) | HHasHigh => VB (fn_high n)
  | Byte o => VC (fn_mem n o)
  | _ => VN 0
  end.

Definition vfields (n : vnode) : fields := fun f =>
  match f with
  | HInner => VB (vn_inner n) | HRemoved => VB (vn_removed n) | HBlock => VN (vn_block n)
  | HDeleted => VN (vn_deleted n) | HCount => VN (vn_rc n) | HNext => VA (vn_next n)
  | HLowOff => VN (vn_loff n) | HLowLen => VN (vn_llen n)
  | HHighOff => VN (vn_hoff n) | HHighLen => VN (vn_hlen n)
  | Byte o => VC (vn_mem n o)
  | _ => VN 0
  end.

(** ** Reader programs *)

(** A sequence of field reads; every read may depend on the values read before. *)
Inductive rp (A : Type) :=
| Ret (a : A)
| Get (f : fld) (k : val -> rp A).
Arguments Ret {A}.
Arguments Get {A}.

(** The program run without interruption on one state of the page. *)
Fixpoint rrun {A} (p : rp A) (m : fields) : A :=
  match p with
  | Ret a => a
  | Get f k => rrun (k (m f)) m
  end.

Fixpoint rbind {A B} (p : rp A) (g : A -> rp B) : rp B :=
  match p with
  | Ret a => g a
  | Get f k => Get f (fun v => rbind (k v) g)
  end.

(** Composition of programs that may fail to decode what they read. *)
Definition rbo {A B} (p : rp (option A)) (g : A -> rp (option B)) : rp (option B) :=
  rbind p (fun o => match o with Some a => g a | None => Ret None end).

Definition gb (f : fld) : rp (option bool) :=
  Get f (fun v => Ret (match v with VB b => Some b | _ => None end)).
Definition gn (f : fld) : rp (option nat) :=
  Get f (fun v => Ret (match v with VN n => Some n | _ => None end)).
Definition ga (f : fld) : rp (option (option addr)) :=
  Get f (fun v => Ret (match v with VA a => Some a | _ => None end)).

(** [n] bytes from offset [o], in ascending order. *)
Fixpoint gbytes (o n : nat) : rp (option (list cell)) :=
  match n with
  | 0 => Ret (Some [])
  | S n' => Get (Byte o) (fun v =>
      match v with
      | VC c => rbo (gbytes (S o) n') (fun l => Ret (Some (c :: l)))
      | _ => Ret None
      end)
  end.
Definition gmem (o n : nat) : rp (option (list cell)) :=
  if inpage o n then gbytes o n else Ret None.

(** The loop of SearchRecord, osl/node_fixlen.hpp:420-439, osl/node_varlen.hpp:454-475. *)
Fixpoint gsearch (fuel : nat) (kf : nat -> rp (option K)) (key : K) (b e : Z)
  : rp (option (bool * Z)) :=
  match fuel with
  | 0 => Ret None
  | S fuel' =>
      if Z.leb b e then
        let pos := Z.div (b + e) 2 in
        rbo (kf (Z.to_nat pos)) (fun ik =>
          if ltb key ik then gsearch fuel' kf key b (pos - 1)
          else if ltb ik key then gsearch fuel' kf key (pos + 1) e
          else Ret (Some (true, pos)))
      else Ret (Some (false, b))
  end.

(** *** Fixed-length layout *)

(** GetKey, osl/node_fixlen.hpp:270-274, oml/node_fixlen.hpp:258-262. *)
Definition gf_key (i : nat) : rp (option K) :=
  rbo (gmem (fk_off i) ks) (fun b => Ret (dec_key b)).

(** CompHighKey, osl/node_fixlen.hpp:1210-1214, oml/node_fixlen.hpp:1218-1222. *)
Definition gf_comphigh (key : K) : rp (option bool) :=
  rbo (gb HHasHigh) (fun h =>
  if h then rbo (gn HCount) (fun rc =>
            rbo (gf_key rc) (fun hk => Ret (Some (ltb key hk))))
  else Ret (Some true)).

(** SearchRecord, osl/node_fixlen.hpp:420-439, oml/node_fixlen.hpp:469-488. *)
Definition gf_search (key : K) : rp (option (node_rc * nat)) :=
  rbo (gb HInner) (fun inner =>
  rbo (gn HCount) (fun rc =>
  rbo (gsearch (S rc) gf_key key (Z.of_nat (b2n inner)) (Z.of_nat rc - 1)) (fun r =>
  Ret (if fst r then Some (kKeyAlreadyInserted, Z.to_nat (snd r))
       else Some (kKeyNotInserted, Z.to_nat (snd r - Z.of_nat (b2n inner))))))).

(** GetPayload, osl/node_fixlen.hpp:283-289, oml/node_fixlen.hpp:271-277. *)
Definition gf_pay (i len : nat) : rp (option pay) :=
  rbo (gn HPayLen) (fun pl =>
  rbo (gmem (fp_off pl i) len) (fun b => Ret (dec_pay b))).

(** *** Variable-length layout *)

(** meta_array_[i], GetKey(meta), GetPayload(meta): osl/node_varlen.hpp:295-323
    and 1411-1463, oml/node_varlen.hpp:264-292 and 1412-1464. *)
Definition gv_meta (i : nat) : rp (option meta) :=
  rbo (gmem (vm_off i) metalen) (fun b => Ret (dec_meta b)).
Definition gv_mkey (mt : meta) : rp (option K) :=
  rbo (gmem (md_off mt) (md_klen mt)) (fun b => Ret (dec_key b)).
Definition gv_key (i : nat) : rp (option K) :=
  rbo (gv_meta i) gv_mkey.

(** GetHighKey: the offset, then the length.  osl/node_varlen.hpp:234-249,
    1371-1375, oml/node_varlen.hpp:1265-1291. *)
Definition gv_highkey : rp (option K) :=
  rbo (gn HHighOff) (fun o =>
  rbo (gn HHighLen) (fun l =>
  rbo (gmem o l) (fun b => Ret (dec_key b)))).

(** CompHighKey, osl/node_varlen.hpp:1383-1400, oml/node_varlen.hpp:1299-1316. *)
Definition gv_comphigh (key : K) : rp (option bool) :=
  rbo (gn HHighLen) (fun l =>
  if Nat.eqb l 0 then Ret (Some true)
  else rbo gv_highkey (fun hk => Ret (Some (ltb key hk)))).

(** SearchRecord, osl/node_varlen.hpp:454-475, oml/node_varlen.hpp:487-508. *)
Definition gv_search (key : K) : rp (option (node_rc * nat)) :=
  rbo (gb HInner) (fun inner =>
  rbo (gn HCount) (fun rc =>
  rbo (gsearch (S rc) gv_key key (Z.of_nat (b2n inner)) (Z.of_nat rc - 1)) (fun r =>
  if fst r then
    rbo (gv_meta (Z.to_nat (snd r))) (fun mt =>
    Ret (Some (if md_del mt then kKeyAlreadyDeleted else kKeyAlreadyInserted,
               Z.to_nat (snd r))))
  else Ret (Some (kKeyNotInserted, Z.to_nat (snd r - Z.of_nat (b2n inner))))))).

Definition gv_pay (i len : nat) : rp (option pay) :=
  rbo (gv_meta i) (fun mt =>
  rbo (gmem (md_off mt + md_klen mt) len) (fun b => Ret (dec_pay b))).

(** *** One attempt of the reading functions *)

(** What an attempt yields: go on to [next_], or the result for this page. *)
Definition attempt (R : Type) := (option addr + R)%type.

(** CheckKeyRange followed by Read: osl/node_fixlen.hpp:503-527 and 610-626,
    osl/node_varlen.hpp:539-563 and 646-663, oml/node_fixlen.hpp:601-625 and 693-710,
    oml/node_varlen.hpp:621-645 and 713-730. *)
Definition g_read (comphigh : K -> rp (option bool)) (search : K -> rp (option (node_rc * nat)))
    (pay : nat -> nat -> rp (option pay)) (key : K) : rp (option (attempt (option V))) :=
  rbo (gb HRemoved) (fun rm =>
  rbo (if rm then Ret (Some false) else comphigh key) (fun here =>
  if here then
    rbo (search key) (fun s =>
    match fst s with
    | kKeyAlreadyInserted =>
        rbo (pay (snd s) plen) (fun p =>
        match p with PV v => Ret (Some (inr (Some v))) | PP _ => Ret None end)
    | _ => Ret (Some (inr None))
    end)
  else rbo (ga HNext) (fun nx => Ret (Some (inl nx))))).

(** SearchChild of the multi-layer tree: oml/node_fixlen.hpp:500-522,
    oml/node_varlen.hpp:520-542.  [None] stands for nullptr (start again at the root). *)
Definition g_child (comphigh : K -> rp (option bool)) (search : K -> rp (option (node_rc * nat)))
    (pay : nat -> nat -> rp (option pay)) (key : K) : rp (option (option addr)) :=
  rbo (gb HRemoved) (fun rm =>
  rbo (if rm then Ret (Some false) else comphigh key) (fun here =>
  if here then
    rbo (search key) (fun s =>
    rbo (pay (snd s) ptrlen) (fun p =>
    match p with PP a => Ret (Some (Some a)) | PV _ => Ret None end))
  else Ret (Some None))).

Definition gf_read := g_read gf_comphigh gf_search gf_pay.
Definition gv_read := g_read gv_comphigh gv_search gv_pay.
Definition gf_child := g_child gf_comphigh gf_search gf_pay.
Definition gv_child := g_child gv_comphigh gv_search gv_pay.

(** ** The latch *)

Definition tid := nat.
Inductive owner := OFree | OSIX (t : tid) | OX (t : tid).
Record latch := Latch { l_ver : nat; l_own : owner; l_shared : nat }.

Definition no_x (l : latch) : Prop := forall t, l_own l <> OX t.

(** Life of a page: never used, under construction by a thread, reachable by others. *)
Inductive life := Unused | Private (t : tid) | Shared.

(** ** Writers *)

Inductive act :=
| ANew (p : addr)                       (* placement new on a page *)
| APub (p : addr)                       (* the address of p is stored where others find it *)
| ALockS (p : addr) | AUnlockS (p : addr)
| ALockSIX (p : addr) | AUnlockSIX (p : addr)
| ALockX (p : addr) | AUnlockX (p : addr)
| ATryS (p : addr) (ver : nat) | ATrySIX (p : addr) (ver : nat) | ATryX (p : addr) (ver : nat)
| AUpX (p : addr) | ADown (p : addr)
| AWr (p : addr) (f : fld) (v : val).

Record st := St {
  s_mem : addr -> fields;
  s_latch : addr -> latch;
  s_life : addr -> life;
  s_prog : tid -> list act;
}.

Definition upd {A} (m : nat -> A) (a : nat) (x : A) : nat -> A :=
  fun b => if Nat.eqb a b then x else m b.

Definition fld_eqb (f g : fld) : bool :=
  match f, g with
  | HInner, HInner | HRemoved, HRemoved | HBlock, HBlock | HDeleted, HDeleted
  | HCount, HCount | HPayLen, HPayLen | HNext, HNext | HHasLow, HHasLow
  | HHasHigh, HHasHigh | HLowOff, HLowOff | HLowLen, HLowLen | HHighOff, HHighOff
  | HHighLen, HHighLen => true
  | Byte o, Byte o' => Nat.eqb o o'
  | _, _ => false
  end.
Definition fupd (m : fields) (f : fld) (v : val) : fields :=
  fun g => if fld_eqb f g then v else m g.

Definition set_own (l : latch) (o : owner) : latch := Latch (l_ver l) o (l_shared l).
Definition next_ver (l : latch) (o : owner) : latch := Latch (S (l_ver l)) o (l_shared l).

(** Effect of a latch operation by [t]; [None]: it has to wait (or fails, or is misused). *)
Definition latch_act (t : tid) (a : act) (l : latch) : option latch :=
  match a, l_own l with
  | ALockS _, OX _ => None
  | ALockS _, _ => Some (Latch (l_ver l) (l_own l) (S (l_shared l)))
  | ATryS _ _, OX _ => None
  | ATryS _ v, _ =>
      if Nat.eqb v (l_ver l) then Some (Latch (l_ver l) (l_own l) (S (l_shared l))) else None
  | AUnlockS _, o =>
      if Nat.eqb (l_shared l) 0 then None else Some (Latch (l_ver l) o (l_shared l - 1))
  | ALockSIX _, OFree => Some (set_own l (OSIX t))
  | ATrySIX _ v, OFree => if Nat.eqb v (l_ver l) then Some (set_own l (OSIX t)) else None
  | AUnlockSIX _, OSIX u => if Nat.eqb t u then Some (set_own l OFree) else None
  | ALockX _, OFree => if Nat.eqb (l_shared l) 0 then Some (set_own l (OX t)) else None
  | ATryX _ v, OFree =>
      if Nat.eqb v (l_ver l) && Nat.eqb (l_shared l) 0 then Some (set_own l (OX t)) else None
  | AUpX _, OSIX u =>
      if Nat.eqb t u && Nat.eqb (l_shared l) 0 then Some (set_own l (OX t)) else None
  | ADown _, OX u => if Nat.eqb t u then Some (next_ver l (OSIX t)) else None
  | AUnlockX _, OX u => if Nat.eqb t u then Some (next_ver l OFree) else None
  | _, _ => None
  end.

(** The page an action is about. *)
Definition page_of (a : act) : addr :=
  match a with
  | ANew p | APub p | ALockS p | AUnlockS p | ALockSIX p | AUnlockSIX p | ALockX p
  | AUnlockX p | ATryS p _ | ATrySIX p _ | ATryX p _ | AUpX p | ADown p | AWr p _ _ => p
  end.

(** One action of a thread; a page is not touched before it is constructed, and is
    published by the thread that constructs it.  Nothing in this semantics asks a writer to
    hold a latch. *)
Definition act_step (t : tid) (a : act) (s : st) : option st :=
  let p := page_of a in
  match a, s_life s p with
  | ANew _, Unused =>
      Some (St (s_mem s) (upd (s_latch s) p (Latch 0 OFree 0))
               (upd (s_life s) p (Private t)) (s_prog s))
  | ANew _, _ => None
  | _, Unused => None
  | APub _, Private u =>
      if Nat.eqb t u then Some (St (s_mem s) (s_latch s) (upd (s_life s) p Shared) (s_prog s))
      else None
  | APub _, Shared => Some s
  | AWr _ f v, _ =>
      Some (St (upd (s_mem s) p (fupd (s_mem s p) f v)) (s_latch s) (s_life s) (s_prog s))
  | _, _ =>
      match latch_act t a (s_latch s p) with
      | Some l => Some (St (s_mem s) (upd (s_latch s) p l) (s_life s) (s_prog s))
      | None => None
      end
  end.

(** Thread [t] performs the next action of its program. *)
Definition thr_step (t : tid) (s s' : st) : Prop :=
  exists a rest s1, s_prog s t = a :: rest /\ act_step t a s = Some s1 /\
    s' = St (s_mem s1) (s_latch s1) (s_life s1) (upd (s_prog s1) t rest).

Definition wr_step (s s' : st) : Prop := exists t, thr_step t s s'.

(** ** The reader *)

(** The page being read, the version loaded, what is left of the program. *)
Record rdr (R : Type) := Rdr { r_page : addr; r_ver : nat; r_rest : rp R }.
Arguments Rdr {R}.
Arguments r_page {R}.
Arguments r_ver {R}.
Arguments r_rest {R}.

(** mutex_.GetVersion(): waits while X is held. *)
Definition rd_load {R} (s : st) (p : addr) (q : rp R) (r : rdr R) : Prop :=
  no_x (s_latch s p) /\ r = Rdr p (l_ver (s_latch s p)) q.

(** The reader reads one field, or a writer makes one step. *)
Inductive rw_step {R} : st * rdr R -> st * rdr R -> Prop :=
| rw_writer s s' r : wr_step s s' -> rw_step (s, r) (s', r)
| rw_reader s p ver f k :
    rw_step (s, Rdr p ver (Get f k)) (s, Rdr p ver (k (s_mem s p f))).

Inductive rw_steps {R} : st * rdr R -> st * rdr R -> Prop :=
| rw_refl c : rw_steps c c
| rw_trans c1 c2 c3 : rw_step c1 c2 -> rw_steps c2 c3 -> rw_steps c1 c3.

(** The program is finished and mutex_.HasSameVersion(ver) is true. *)
Definition validated {R} (c : st * rdr R) (x : R) : Prop :=
  r_rest (snd c) = Ret x /\
  l_ver (s_latch (fst c) (r_page (snd c))) = r_ver (snd c) /\
  no_x (s_latch (fst c) (r_page (snd c))).

(** ** What the code does *)

(** The accesses between two latch operations, as writes of arbitrary values to arbitrary
    fields of one page. *)
Definition ws (p : addr) (w : list (fld * val)) : list act :=
  map (fun x => AWr p (fst x) (snd x)) w.

(** UpgradeToX, modifications, UnlockX. *)
Definition up_unlock (p : addr) (w : list (fld * val)) : list act :=
  AUpX p :: ws p w ++ [AUnlockX p].
(** UpgradeToX, modifications, DowngradeToSIX. *)
Definition up_down (p : addr) (w : list (fld * val)) : list act :=
  AUpX p :: ws p w ++ [ADown p].

(** Functions of all four optimistic node types that only use the latch:
    GetMergeableSibling (osl), GetMergeableRightChild (oml), CheckKeyRangeAndLockForRead,
    CheckKeyRangeAndLockForWrite, LockS/UnlockS/LockSIX/TryLockSIX/UnlockSIX. *)
Inductive latch_call : list act -> Prop :=
| lc_lockS p : latch_call [ALockS p]
| lc_tryS p v : latch_call [ATryS p v]
| lc_unlockS p : latch_call [AUnlockS p]
| lc_lockSIX p : latch_call [ALockSIX p]
| lc_trySIX p v : latch_call [ATrySIX p v]
| lc_unlockSIX p : latch_call [AUnlockSIX p].

(** Creation of nodes: placement new, the constructor and SetPayloadLength write to the
    new page, then its address is published.  osl/b_tree.hpp:87-91, 735-736,
    oml/b_tree.hpp:87-91, 679-680 (root_.store); the right node of a split is published by
    Split or by InsertChild. *)
Inductive new_call : list act -> Prop :=
| nc_new p w : new_call (ANew p :: ws p w)
| nc_root p w : new_call (ANew p :: ws p w ++ [APub p]).

(** osl/node_fixlen.hpp. *)
Inductive osl_fix_call : list act -> Prop :=
| of_latch l : latch_call l -> osl_fix_call l
| of_new l : new_call l -> osl_fix_call l
  (* Write, :647-672, and InsertRecord, :731-756; the caller holds SIX *)
| of_write p w : osl_fix_call (up_unlock p w)
  (* Insert, :691-719: TryLockSIX, then InsertRecord *)
| of_insert p v w : osl_fix_call (ATrySIX p v :: up_unlock p w)
  (* Update, :773-799 *)
| of_update p v w : osl_fix_call (ATryX p v :: ws p w ++ [AUnlockX p])
  (* Delete, :815-853 *)
| of_delete p v w : osl_fix_call (ATryX p v :: ws p w ++ [AUnlockX p])
| of_delete_merge p v w : osl_fix_call (ATryX p v :: ws p w ++ [ADown p])
  (* InsertChild, :866-906 *)
| of_ins_child p w : osl_fix_call (up_unlock p w)
  (* DeleteChild, :919-958 *)
| of_del_child p w : osl_fix_call (up_unlock p w)
| of_del_child_merge p w : osl_fix_call (up_down p w)
  (* Split, :970-1004 *)
| of_split p r wr wp wp' :
    osl_fix_call (ALockX r :: ws r wr ++ ADown r :: AUpX p :: ws p wp ++ APub r ::
                  ws p wp' ++ [ADown p])
  (* Merge, :1012-1039 *)
| of_merge p r wp wr : osl_fix_call (up_unlock p wp ++ up_unlock r wr)
  (* RemoveRoot, :1047-1062 *)
| of_rm_root p c w : osl_fix_call (AUpX p :: ALockSIX c :: ws p w ++ [AUnlockX p]).

(** osl/node_varlen.hpp. *)
Inductive osl_var_call : list act -> Prop :=
| ov_latch l : latch_call l -> osl_var_call l
| ov_new l : new_call l -> osl_var_call l
  (* Write, :684-717: CleanUp, then InsertRecord, ReuseRecord (:1523-1539) or overwrite *)
| ov_cleanup p w : osl_var_call (up_down p w)
| ov_write p w : osl_var_call (up_unlock p w)
  (* Insert, :736-777: CleanUp under X, then under SIX *)
| ov_insert_cleanup p v w : osl_var_call (ATryX p v :: ws p w ++ [AUnlockX p])
| ov_insert p v w : osl_var_call (ATrySIX p v :: up_unlock p w)
  (* Update, :829-855 *)
| ov_update p v w : osl_var_call (ATryX p v :: ws p w ++ [AUnlockX p])
  (* Delete, :871-900 *)
| ov_delete p v w : osl_var_call (ATryX p v :: ws p w ++ [AUnlockX p])
| ov_delete_merge p v w : osl_var_call (ATryX p v :: ws p w ++ [ADown p])
  (* InsertChild, :913-953; CleanUp, then the insertion *)
| ov_ins_child p w : osl_var_call (up_unlock p w)
  (* DeleteChild, :966-1001 *)
| ov_del_child p w : osl_var_call (up_unlock p w)
| ov_del_child_merge p w : osl_var_call (up_down p w)
  (* Split, :1013-1083; temp_node_ is thread-local *)
| ov_split p r wr wp wp' :
    osl_var_call (ALockX r :: ws r wr ++ ADown r :: AUpX p :: ws p wp ++ APub r ::
                  ws p wp' ++ [ADown p])
  (* Merge, :1091-1129 *)
| ov_merge p r wp wr : osl_var_call (up_unlock p wp ++ up_unlock r wr)
  (* RemoveRoot, :1137-1152 *)
| ov_rm_root p c w : osl_var_call (AUpX p :: ALockSIX c :: ws p w ++ [AUnlockX p]).

(** oml/node_fixlen.hpp and oml/b_tree.hpp.  [both] of Split stay X-latched until
    GetValidSplitNode (:183-202) releases them, in one of two orders. *)
Inductive oml_fix_call : list act -> Prop :=
| mf_latch l : latch_call l -> oml_fix_call l
| mf_new l : new_call l -> oml_fix_call l
  (* Write, :729-748 *)
| mf_write p w : oml_fix_call (up_unlock p w)
  (* Insert, :767-798; Update, :815-839; Delete, :854-887 *)
| mf_insert p v w : oml_fix_call (ATryX p v :: ws p w ++ [AUnlockX p])
| mf_update p v w : oml_fix_call (ATryX p v :: ws p w ++ [AUnlockX p])
| mf_delete p v w : oml_fix_call (ATryX p v :: ws p w ++ [AUnlockX p])
  (* InsertChild, :898-923; the new right child is published by it (inner nodes) *)
| mf_ins_child p r w w' :
    oml_fix_call (AUpX p :: ws p w ++ APub r :: ws p w' ++ [AUnlockX p])
  (* DeleteChild, :931-949 *)
| mf_del_child p w : oml_fix_call (up_unlock p w)
  (* Split, :961-995, up to GetValidSplitNode *)
| mf_split p r wr wp wp' :
    oml_fix_call (ALockX r :: ws r wr ++ AUpX p :: ws p wp ++ APub r :: ws p wp')
| mf_split_inner p r wr wp :
    oml_fix_call (ALockX r :: ws r wr ++ AUpX p :: ws p wp)
| mf_valid_r p r : oml_fix_call [AUnlockX r; AUnlockX p]
| mf_valid_l p r : oml_fix_call [AUnlockX p; AUnlockX r]
  (* Merge, :1003-1036 *)
| mf_merge p r wp wr : oml_fix_call (up_unlock p wp ++ up_unlock r wr)
  (* RemoveRoot, :1140-1154 *)
| mf_rm_root p w : oml_fix_call (up_unlock p w).

(** oml/node_varlen.hpp without Merge. *)
Inductive oml_var_call0 : list act -> Prop :=
| mv_latch l : latch_call l -> oml_var_call0 l
| mv_new l : new_call l -> oml_var_call0 l
  (* Write, :749-770 *)
| mv_write p w : oml_var_call0 (up_unlock p w)
  (* Insert, :789-825; Update, :842-866; Delete, :881-904 *)
| mv_insert p v w : oml_var_call0 (ATryX p v :: ws p w ++ [AUnlockX p])
| mv_update p v w : oml_var_call0 (ATryX p v :: ws p w ++ [AUnlockX p])
| mv_delete p v w : oml_var_call0 (ATryX p v :: ws p w ++ [AUnlockX p])
  (* CleanUp in NeedSplit and NeedMerge, :1326-1378 *)
| mv_cleanup p v w : oml_var_call0 (ATryX p v :: ws p w ++ [AUnlockX p])
  (* InsertChild, :915-937 *)
| mv_ins_child p r w w' :
    oml_var_call0 (AUpX p :: ws p w ++ APub r :: ws p w' ++ [AUnlockX p])
  (* DeleteChild, :945-959 *)
| mv_del_child p w : oml_var_call0 (up_unlock p w)
  (* Split, :971-1024 *)
| mv_split p r wr wp wp' :
    oml_var_call0 (ALockX r :: ws r wr ++ AUpX p :: ws p wp ++ APub r :: ws p wp')
| mv_split_inner p r wr wp :
    oml_var_call0 (ALockX r :: ws r wr ++ AUpX p :: ws p wp)
| mv_valid_r p r : oml_var_call0 [AUnlockX r; AUnlockX p]
| mv_valid_l p r : oml_var_call0 [AUnlockX p; AUnlockX r]
  (* RemoveRoot, :1190-1204 *)
| mv_rm_root p w : oml_var_call0 (up_unlock p w).

(** oml/node_varlen.hpp.  Merge (:1032-1074) assigns h_key_offset_ and h_key_len_
    (:1038-1039) before UpgradeToX (:1043). *)
Inductive oml_var_call : list act -> Prop :=
| mv_other l : oml_var_call0 l -> oml_var_call l
| mv_merge p r o n wp wr :
    oml_var_call (AWr p HHighOff (VN o) :: AWr p HHighLen (VN n) ::
                  up_unlock p wp ++ up_unlock r wr).

(** Programs: any number of calls, in any order, with any arguments. *)
Inductive calls (C : list act -> Prop) : list act -> Prop :=
| calls_nil : calls C []
| calls_cons l l' : C l -> calls C l' -> calls C (l ++ l').

(** Initially no latch is held and every thread is about to run its program. *)
Definition initial (C : list act -> Prop) (s : st) : Prop :=
  (forall p, l_own (s_latch s p) = OFree) /\
  (forall p t, s_life s p <> Private t) /\
  (forall t, calls C (s_prog s t)).

Inductive reach (C : list act -> Prop) : st -> Prop :=
| reach_init s : initial C s -> reach C s
| reach_step s s' : reach C s -> wr_step s s' -> reach C s'.

End SeqModel.

Arguments Ret {P A}.
Arguments Get {P A}.
Arguments Rdr {P R}.
Arguments r_page {P R}.
Arguments r_ver {P R}.
Arguments r_rest {P R}.
