(** The invariant of the concurrent single-layer trees.

    The invariant speaks about ghost data that the code does not store: the height of each
    node, the lowest key it is responsible for (fixed when it is created), when it was made,
    and when it stopped being part of the tree and in favour of which node.
    This file is proof-side only: no definition here models code. *)
From Coq Require Import List Arith Bool Lia Sorted.
From Verif Require Import Params Mem Common Spec ConcSpec NodeAbs SLIface TreeState Levels
  ConcModel ConcLin.
Import ListNotations.

Section ConcInv.
Context {P : Params} {O : OrdLaws P} {N : SLOps P} {L : SLLaws P N}.

Record gh := Gh {
  lv : addr -> nat;            (* height above the leaves *)
  lo : addr -> ext;            (* lowest key the node is responsible for *)
  bt : addr -> nat;            (* time of birth *)
  dd : addr -> option nat;     (* time of death; None for nodes of the tree *)
  tg : addr -> option addr;    (* the node that took over; None for removed roots *)
  av : addr -> anode;          (* contents *)
}.

Definition dle (x y : option nat) : Prop :=
  match x, y with
  | _, None => True
  | None, Some _ => False
  | Some i, Some j => i <= j
  end.
Definition dlt (i : nat) (y : option nat) : Prop :=
  match y with None => True | Some j => i < j end.

Definition hia (a : anode) : ext := match a_high a with Some h => Key h | None => PosInf end.

Definition skid (s : slot) : addr := match s_pay s with PP c => c | PV _ => 0 end.
Definition skey (s : slot) : ext := match s_key s with Some k => Key k | None => NegInf end.
Definition sent (s : slot) : ext * addr := (skey s, skid s).

(** The entries of an inner node; the first one starts at the lowest key of the node. *)
Definition ents (l : ext) (sl : list slot) : list (ext * addr) :=
  match sl with [] => [] | s :: tl => (l, skid s) :: map sent tl end.

Definition entries_of (G : gh) (a : addr) : list (ext * addr) :=
  ents (lo G a) (a_slots (av G a)).
Definition hi (G : gh) (a : addr) : ext := hia (av G a).

(** A node that has been merged away leads to the one that took over. *)
Inductive final (G : gh) : addr -> addr -> Prop :=
| fin_live a : dd G a = None -> final G a a
| fin_root a T : dd G a = Some T -> tg G a = None -> final G a a
| fin_tg a T b f : dd G a = Some T -> tg G a = Some b -> final G b f -> final G a f.

Inductive gone (G : gh) : addr -> Prop :=
| gone_root a T : dd G a = Some T -> tg G a = None -> gone G a
| gone_tg a T b : dd G a = Some T -> tg G a = Some b -> gone G b -> gone G a.

(** Where [x] leads to is not to the right of where [a] leads to. *)
Definition lowr (G : gh) (x a : addr) : Prop :=
  forall f g, final G x f -> final G a g -> ele (lo G f) (lo G g).

Record node_ok (fr : addr) (G : gh) (a : addr) (d : nd) : Prop := {
  n_rep : rep d (av G a);
  n_rem : a_removed (av G a) = false;
  n_inner : a_inner (av G a) = negb (lv G a =? 0);
  n_body : body_ok (a_inner (av G a)) (a_slots (av G a));
  n_low : forall k, lo G a = Key k -> a_low (av G a) = Some k;
  n_rng : elt (lo G a) (hi G a);
  n_leaf : lv G a = 0 -> forall k, In k (keys_of (a_slots (av G a))) ->
    ele (lo G a) (Key k) /\ elt (Key k) (hi G a);
  n_head : lv G a <> 0 -> forall k, lo G a = Key k ->
    exists s sl, a_slots (av G a) = s :: sl /\ s_key s = Some k;
  n_seps : lv G a <> 0 -> forall k, In k (keys_of (tl (a_slots (av G a)))) ->
    elt (lo G a) (Key k) /\ elt (Key k) (hi G a);
  n_kids : lv G a <> 0 -> forall e c, In (e, c) (entries_of G a) ->
    c < fr /\ lv G a = S (lv G c) /\ lo G c = e /\ dle (dd G a) (dd G c) /\ lowr G a c;
  n_next : match a_next (av G a) with
           | Some b => exists k, a_high (av G a) = Some k /\ lo G b = Key k /\ b < fr /\
               lv G b = lv G a /\ dle (dd G a) (dd G b) /\ dle (Some (bt G b)) (dd G a) /\
               lowr G a b
           | None => a_high (av G a) = None
           end;
}.

Definition inrange (G : gh) (a : addr) (k : K) : Prop :=
  ele (lo G a) (Key k) /\ elt (Key k) (hi G a).

Context (m0 : amap).

Definition mapat (tr : list label) (i : nat) : amap := effs m0 (firstn i tr).

Record heap_ok (h : addr -> option nd) (fr : addr) (G : gh) (tr : list label) : Prop := {
  h_some : forall a, a < fr -> exists d, h a = Some d;
  h_none : forall a d, h a = Some d -> a < fr;
  h_node : forall a d, h a = Some d -> nd_removed d = false -> node_ok fr G a d;
  h_dead : forall a d, h a = Some d -> nd_removed d = true ->
    dd G a <> None /\ nd_next d = tg G a /\ (tg G a = None -> nd_inner d = true) /\
    nd_inner d = negb (lv G a =? 0);
  h_bt : forall a, a < fr -> bt G a <= length tr;
  h_btd : forall a T, a < fr -> dd G a = Some T -> bt G a <= T /\ T < length tr;
  h_tg : forall a T, a < fr -> dd G a = Some T ->
    match tg G a with
    | Some l => l < fr /\ lv G l = lv G a /\ elt (lo G l) (lo G a) /\ dlt T (dd G l)
    | None => lo G a = NegInf /\ lv G a <> 0 /\
        forall y, y < fr -> bt G y <= T -> lv G a <= lv G y -> gone G y
    end;
  h_key : forall a k, a < fr -> lo G a = Key k -> kvalid k;
  h_disj : forall a b, a < fr -> b < fr -> dd G a = None -> dd G b = None ->
    lv G a = lv G b -> a <> b -> ele (hi G a) (lo G b) \/ ele (hi G b) (lo G a);
  h_cont : forall a, a < fr -> dd G a = None -> lv G a = 0 -> forall k, inrange G a k ->
    assoc k (live (a_slots (av G a))) = effs m0 tr k;
  h_stale : forall a d T, h a = Some d -> nd_removed d = false -> dd G a = Some T ->
    lv G a = 0 -> forall k, inrange G a k ->
    assoc k (live (a_slots (av G a))) = mapat tr T k;
  h_sdisj : forall b d T r, h b = Some d -> nd_removed d = false -> dd G b = Some T ->
    r < fr -> dd G r = None -> lv G r = lv G b -> bt G r <= T ->
    ~ (ele (lo G b) (lo G r) /\ elt (lo G r) (hi G b));
}.

(** ** Threads *)

Definition owns (s : cfg) (t : tid) (a : addr) : Prop := six s a = Some t.
Definition lives (s : cfg) (G : gh) (a : addr) : Prop := a < cfr s /\ dd G a = None.

Definition noentry (s : cfg) (G : gh) (r : addr) : Prop :=
  forall p, lives s G p -> lv G p <> 0 -> forall e c, In (e, c) (entries_of G p) -> c <> r.

(** [r] waits for its entry in a parent. *)
Definition pending (s : cfg) (G : gh) (r : addr) (sep : K) : Prop :=
  lives s G r /\ lo G r = Key sep /\ noentry s G r.

Definition deadroot (s : cfg) (a : addr) : Prop :=
  exists d, ch s a = Some d /\ nd_removed d = true /\ nd_next d = None.

Definition all_gone (s : cfg) (G : gh) (stk : list addr) : Prop :=
  forall z, In z stk -> z < cfr s /\ gone G z.

(** The nodes [stk] lie above [a], on ascending heights; at some point only nodes that
    ended in a removed root may follow. *)
Fixpoint stk_ok (s : cfg) (G : gh) (a : addr) (stk : list addr) : Prop :=
  all_gone s G stk \/
  match stk with
  | [] => True
  | x :: rest =>
      x < cfr s /\ lv G x = S (lv G a) /\ lowr G x a /\
      (forall z, In z stk -> gone G z \/ dle (Some (bt G z)) (dd G a)) /\
      stk_ok s G x rest
  end.

Definition key_free (G : gh) (a : addr) (k : K) : Prop :=
  ~ In k (keys_of (a_slots (av G a))).

Definition page_is (s : cfg) (a : addr) (Q : nd -> Prop) : Prop :=
  exists d, ch s a = Some d /\ Q d.

Definition is_put (c : call) : Prop :=
  match c with CWrite _ _ | CInsert _ _ => True | _ => False end.

(** [l] and its right sibling [r], both latched by [t]. *)
Definition pair_ok (s : cfg) (G : gh) (t : tid) (l r : addr) : Prop :=
  owns s t l /\ owns s t r /\ lives s G l /\ lives s G r /\ a_next (av G l) = Some r.

Definition mergeable (s : cfg) (l r : addr) : Prop :=
  exists dl dr, ch s l = Some dl /\ ch s r = Some dr /\ nd_can_merge dl dr = true.

Definition kont_ok (s : cfg) (G : gh) (t : tid) (k : kont) (key : K) (target : addr) : Prop :=
  match k with
  | KSplit l r sep => target = r /\ key = sep /\ pending s G r sep /\ l < cfr s /\ lv G l = lv G r
  | KMerge node l => pair_ok s G t l target /\ lo G target = Key key
  end.

Definition up_ok (s : cfg) (G : gh) (t : tid) (up : option (addr * list addr)) : Prop :=
  match up with
  | None => True
  | Some (p, stk) => owns s t p /\ lives s G p /\ lv G p <> 0 /\ stk_ok s G p stk
  end.

Definition pc_ok (s : cfg) (G : gh) (t : tid) (p : pc) : Prop :=
  match p with
  | PIdle | PRet _ => True
  | PRoot c => kvalid (call_key c)
  | PDesc c a stk =>
      kvalid (call_key c) /\ a < cfr s /\
      (deadroot s a \/
       (ele (lo G a) (Key (call_key c)) /\
        (forall i, tstat (tr s) t = TCalled c i -> dle (Some i) (dd G a)) /\
        stk_ok s G a stk))
  | PSplit c a stk =>
      kvalid (call_key c) /\ is_put c /\ owns s t a /\ lives s G a /\ lv G a = 0 /\
      inrange G a (call_key c) /\ key_free G a (call_key c) /\ page_is s a splittable /\
      stk_ok s G a stk
  | PValid c a r sep stk =>
      kvalid (call_key c) /\ is_put c /\ pair_ok s G t a r /\ lv G a = 0 /\ lv G r = 0 /\
      a_high (av G a) = Some sep /\
      ele (lo G a) (Key (call_key c)) /\ elt (Key (call_key c)) (hi G r) /\
      key_free G a (call_key c) /\ key_free G r (call_key c) /\
      page_is s a room /\ page_is s r room /\ pending s G r sep /\ stk_ok s G r stk
  | PRetry c a r x sep stk =>
      kvalid (call_key c) /\ is_put c /\ owns s t x /\ lives s G x /\ lv G x = 0 /\
      inrange G x (call_key c) /\ key_free G x (call_key c) /\ page_is s x room /\
      a < cfr s /\ lv G a = 0 /\ lv G r = 0 /\ pending s G r sep /\ stk_ok s G r stk
  | PSep _ a r x sep stk =>
      a < cfr s /\ lv G a = lv G r /\ pending s G r sep /\ stk_ok s G r stk
  | PComp _ stk x l r sep =>
      pending s G r sep /\ l < cfr s /\ lv G l = lv G r /\ x < cfr s /\
      exists top rest, stk = top :: rest /\ top < cfr s /\ lv G x = lv G top /\
        (gone G top \/ dle (Some (bt G top)) (dd G x)) /\
        stk_ok s G r (x :: rest)
  | PCompSplit _ stk p r sep =>
      pending s G r sep /\ owns s t p /\ lives s G p /\ lv G p = S (lv G r) /\
      inrange G p sep /\ page_is s p splittable /\ stk_ok s G p stk
  | PCompValid _ stk p pr r psep sep =>
      pending s G r sep /\ pending s G pr psep /\ pair_ok s G t p pr /\
      lv G p = S (lv G r) /\ lv G pr = lv G p /\ a_high (av G p) = Some psep /\
      ele (lo G p) (Key sep) /\ elt (Key sep) (hi G pr) /\
      page_is s p room /\ page_is s pr room /\ stk_ok s G pr stk
  | PCompIns _ stk p pr x r psep sep =>
      pending s G r sep /\ pending s G pr psep /\ owns s t x /\ lives s G x /\
      lv G x = S (lv G r) /\ inrange G x sep /\ page_is s x room /\
      p < cfr s /\ lv G p = lv G pr /\ lv G pr = S (lv G r) /\
      stk_ok s G pr stk
  | PTry _ stk l r sep | PTrySt _ stk l r sep =>
      pending s G r sep /\ l < cfr s /\ lv G l = lv G r /\ all_gone s G stk
  | PFindRoot _ k stk key target => kont_ok s G t k key target /\ all_gone s G stk
  | PFind _ k a stk key target =>
      kont_ok s G t k key target /\ a < cfr s /\
      (deadroot s a \/
       (lv G target <= lv G a /\ ele (lo G a) (Key key) /\
        dle (Some (bt G target)) (dd G a) /\ stk_ok s G a stk))
  | PMerge _ stk node l =>
      owns s t l /\ lives s G l /\
      ((exists b, a_next (av G l) = Some b /\ owns s t b) \/
       (node = None /\ stk_ok s G l stk))
  | PMergeAt _ stk x l r del =>
      pair_ok s G t l r /\ mergeable s l r /\ lo G r = Key del /\
      x < cfr s /\ stk_ok s G r (x :: stk)
  | PMrg1 _ l r up =>
      pair_ok s G t l r /\ mergeable s l r /\ noentry s G r /\ up_ok s G t up /\
      (match up with Some (p, _) => lv G p = S (lv G r) | None => True end)
  | PMrg2 _ r m up =>
      owns s t r /\ r < cfr s /\ dd G r <> None /\ tg G r <> None /\
      page_is s r (fun d => nd_removed d = false) /\
      nd_removed m = true /\ nd_next m = tg G r /\ nd_inner m = negb (lv G r =? 0) /\
      up_ok s G t up
  | PShr _ p => owns s t p /\ lives s G p /\ lv G p <> 0
  | PShrL _ p =>
      owns s t p /\ lives s G p /\ lv G p <> 0 /\
      a_next (av G p) = None /\ length (a_slots (av G p)) = 1
  | PShrSt _ p => owns s t p /\ lives s G p
  | PShrEnd _ p => owns s t p
  end.

(** The nodes whose entry in a parent is [p]'s business. *)
Definition kclaims (k : kont) : list addr :=
  match k with KSplit _ r _ => [r] | KMerge _ _ => [] end.
Definition claims (p : pc) : list addr :=
  match p with
  | PValid _ _ r _ _ | PRetry _ _ r _ _ _ | PSep _ _ r _ _ _ | PComp _ _ _ _ r _
  | PCompSplit _ _ _ r _ | PTry _ _ _ r _ | PTrySt _ _ _ r _ | PMrg1 _ _ r _ => [r]
  | PCompValid _ _ _ pr r _ _ | PCompIns _ _ _ pr _ r _ _ => [pr; r]
  | PFindRoot _ k _ _ _ | PFind _ k _ _ _ _ => kclaims k
  | _ => []
  end.

(** What the trace says about the thread. *)
Definition pc_stat (p : pc) (x : tst) : Prop :=
  match p with
  | PIdle => x = TIdle
  | PRoot c | PDesc c _ _ | PSplit c _ _ | PValid c _ _ _ _ | PRetry c _ _ _ _ _ =>
      exists i, x = TCalled c i
  | PSep r _ _ _ _ _ | PComp r _ _ _ _ _ | PCompSplit r _ _ _ _ | PCompValid r _ _ _ _ _ _
  | PCompIns r _ _ _ _ _ _ _ | PTry r _ _ _ _ | PTrySt r _ _ _ _ | PFindRoot r _ _ _ _
  | PFind r _ _ _ _ _ | PMerge r _ _ _ | PMergeAt r _ _ _ _ _ | PMrg1 r _ _ _ | PMrg2 r _ _ _
  | PShr r _ | PShrL r _ | PShrSt r _ | PShrEnd r _ | PRet r => x = TDone r
  end.

Definition shrinking (p : pc) (R : addr) : Prop :=
  (exists r, p = PShrL r R) \/ (exists r, p = PShrSt r R).

Record root_ok (s : cfg) (G : gh) (R : addr) : Prop := {
  r_live : lives s G R;
  r_lo : lo G R = NegInf;
  r_top : forall y, lives s G y -> lv G y <= lv G R;
  r_cur : croot s = R \/
    (deadroot s (croot s) /\ lv G R < lv G (croot s) /\ exists t, shrinking (th s t) R);
  r_shr : forall t p, shrinking (th s t) p -> p = R;
  r_st : forall t r p, th s t = PShrSt r p -> croot s <> R;
  r_alloc : croot s < cfr s;
}.

Definition stale_ok (s : cfg) (G : gh) : Prop :=
  forall a d T, ch s a = Some d -> nd_removed d = false -> dd G a = Some T ->
    exists t r m up, six s a = Some t /\ th s t = PMrg2 r a m up.

Record inv (s : cfg) (G : gh) : Prop := {
  i_heap : heap_ok (ch s) (cfr s) G (tr s);
  i_root : exists R, root_ok s G R;
  i_stale : stale_ok s G;
  i_pc : forall t, pc_ok s G t (th s t);
  i_claims : forall t u, t <> u -> forall r, In r (claims (th s t)) -> ~ In r (claims (th s u));
  i_stat : forall t, pc_stat (th s t) (tstat (tr s) t);
  i_trace : jtrace m0 (tr s);
  i_fresh : forall a, cfr s <= a -> six s a = None;
  i_prog : forall t c, In c (pg s t) -> kvalid (call_key c);
}.

End ConcInv.
