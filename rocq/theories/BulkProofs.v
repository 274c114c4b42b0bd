(** Bulkload builds a tree that holds exactly the entries. *)
From Coq Require Import List Arith ZArith Bool Lia Sorted Permutation.
From Verif Require Import Params Mem Common Spec NodeAbs TreeState Levels TreeHeap BulkModel.
Import ListNotations.

Section Defs.
Context {P : Params}.

Definition slot_of (e : K * pay) : slot := Slot (Some (fst e)) (snd e) false.
Definition kpe (e : K * pay) : ext * addr :=
  (Key (fst e), match snd e with PP a => a | PV _ => 0 end).
Definition esorted (es : list (K * pay)) : Prop := StronglySorted klt (map fst es).
Definition epay (inner : bool) (e : K * pay) : Prop :=
  match snd e with PP _ => inner = true | PV _ => inner = false end.

End Defs.

(** What the construction may assume about the node functions. *)
Class BulkLaws (P : Params) (ND : Type) (B : BulkOps P ND) (sl : bool)
  (R : ND -> anode -> Prop) (valid : K -> Prop) := {
  bk_room : ND -> Prop;      (* there is space for a highest key *)
  BL_fill : forall inner e es, Forall (epay inner) (e :: es) ->
    (forall x, In x (e :: es) -> valid (fst x)) ->
    exists d l1 l2, bk_fill inner (e :: es) = Some (fst e, d, l2) /\ e :: es = l1 ++ l2 /\
      l1 <> [] /\ (inner = true -> 2 <= length (e :: es) -> 2 <= length l1) /\
      R d (ANode inner false None (Some (fst e)) None (map slot_of l1)) /\ bk_room d;
  BL_link : forall l al ra r ar k, R l al -> bk_room l -> a_high al = None ->
    a_low al <> None ->
    R r ar -> a_low ar = Some k -> kat (a_slots ar) 0 = Some k -> valid k ->
    exists l', bk_link l ra r = Some l' /\
      R l' (ANode (a_inner al) (a_removed al)
                  (if sl || negb (a_inner al) then Some ra else a_next al)
                  (a_low al) (Some k) (a_slots al));
  BL_hdr : forall d a, R d a -> bk_inner d = a_inner a /\ bk_rc d = length (a_slots a);
  BL_child : forall d a i s c, R d a -> a_inner a = true -> nth_error (a_slots a) i = Some s ->
    s_pay s = PP c -> bk_child d i = Some c;
  BL_unlow : forall d a, R d a -> a_inner a = true ->
    R (bk_unlow d) (ANode (a_inner a) (a_removed a) (a_next a) None (a_high a) (a_slots a));
  BL_cap : 1 <= bk_cap;
}.

Section BulkProofs.
Context {P : Params} {O : OrdLaws P} {ND : Type} {B : BulkOps P ND} (sl : bool)
  (R : ND -> anode -> Prop) (valid : K -> Prop) {BL : BulkLaws P ND B sl R valid}.

Definition RB (d : ND) (n : anode) : Prop :=
  R d n /\ (a_high n = None -> bk_room d /\ a_low n <> None).

(** [np] after it was linked to [ra], whose first key is [k]. *)
Definition lnk (np : anode) (ra : addr) (k : K) : anode :=
  ANode (a_inner np) (a_removed np) (if sl || negb (a_inner np) then Some ra else a_next np)
        (a_low np) (Some k) (a_slots np).

(** Freed or never allocated pages stay so. *)
Definition grows (h : addr -> option ND) (f : addr) (h' : addr -> option ND) (f' : addr) : Prop :=
  f <= f' /\ forall a, a < f -> h a = None -> h' a = None.

Lemma grows_refl h f : grows h f h f.
Proof. split; auto. Qed.
Lemma grows_trans h f h1 f1 h2 f2 : grows h f h1 f1 -> grows h1 f1 h2 f2 -> grows h f h2 f2.
Proof. intros [A1 A2] [B1 B2]. split; [lia|]. intros a Ha Hn. apply B2; [lia|auto]. Qed.
Lemma grows_set h f a d : h a <> None -> grows h f (upd h a (Some d)) f.
Proof.
  intros Ha. split; [lia|]. intros b Hb Hn. unfold upd. destruct (b =? a) eqn:E; auto.
  apply Nat.eqb_eq in E. congruence.
Qed.
Lemma grows_new h f d : grows h f (upd h f (Some d)) (S f).
Proof.
  split; [lia|]. intros b Hb Hn. unfold upd. destruct (b =? f) eqn:E; auto.
  apply Nat.eqb_eq in E. lia.
Qed.

Lemma hinv0_perm (RR : ND -> anode -> Prop) h f G F F' : Permutation F F' -> hinv0 RR h f G F -> hinv0 RR h f G F'.
Proof.
  intros Hp H.
  assert (Hp2 : Permutation (map fst F ++ G) (map fst F' ++ G)).
  { apply Permutation_app_tail. now apply Permutation_map. }
  split.
  - eapply Permutation_NoDup; [exact Hp2|]. apply (h0_nodup _ _ _ _ _ H).
  - intros a. rewrite (h0_dom _ _ _ _ _ H). split; apply Permutation_in; [|symmetry]; auto.
  - apply (h0_fresh _ _ _ _ _ H).
  - intros a n Hin. apply (h0_rep _ _ _ _ _ H). eapply Permutation_in; [symmetry; exact Hp|auto].
Qed.

(** ** One layer *)

(** A run of bulkloaded nodes whose first key is [k]; [Q] holds of all its keys. *)
Record blvl (Q : K -> Prop) (inner : bool) (k : K) (L : lvl) : Prop := {
  bl_seg : seg sl inner (Key k) L PosInf None;
  bl_head : exists a n L', L = (a, n) :: L' /\ a_low n = Some k /\ kat (a_slots n) 0 = Some k;
  bl_ents : forall e, In e (entries (Key k) L) -> exists x, fst e = Key x /\ Q x;
  bl_keys : forall a n x, In (a, n) L -> In x (rkeys inner (a_slots n)) -> Q x;
}.

Lemma blvl_weaken (Q Q' : K -> Prop) inner k L : (forall x, Q x -> Q' x) -> blvl Q inner k L -> blvl Q' inner k L.
Proof.
  intros Hq [A B' C D]. split; auto.
  - intros e He. destruct (C e He) as (x & E & Hx). eauto.
  - intros a n x Hin Hx. eauto.
Qed.

Lemma sl_keys es : keys_of (map slot_of es) = map fst es.
Proof. induction es as [|[k p] es IH]; [reflexivity|]. cbn. f_equal. exact IH. Qed.

Lemma sl_live es : Forall (epay false) es ->
  map (fun e => (fst e, PV (snd e))) (live (map slot_of es)) = es.
Proof.
  induction 1 as [|[k p] es Hp _ IH]; [reflexivity|]. unfold epay in Hp. cbn in Hp. destruct p as [v|a]; [|discriminate].
  cbn. f_equal. exact IH.
Qed.

Lemma sl_kents es : map kent (map slot_of es) = map kpe es.
Proof. induction es as [|[k [v|a]] es IH]; cbn; auto; now rewrite IH. Qed.

(** What a filled node looks like at its place. *)
Lemma fill_wf inner e l nx hi : Forall (epay inner) (e :: l) -> esorted (e :: l) ->
  (forall x, In x (e :: l) -> elt (Key (fst x)) (match hi with Some k => Key k | None => PosInf end)) ->
  node_wf sl inner (Key (fst e)) (ANode inner false nx (Some (fst e)) hi (map slot_of (e :: l))).
Proof.
  intros Hp Hs Hhi. unfold esorted in Hs. cbn [map] in Hs. apply StronglySorted_inv in Hs as [Hs1 Hs2].
  rewrite Forall_forall in Hs2.
  assert (Hhd : forall hi', elt (Key (fst e)) (match hi with Some k => Key k | None => PosInf end) ->
     hi' = hi -> elt (Key (fst e)) (hi_ext (ANode inner false nx (Some (fst e)) hi' (map slot_of (e :: l)))))
    by (intros hi' H ->; exact H).
  split; cbn [a_inner a_removed a_slots a_low]; auto.
  - destruct inner; cbn.
    + split; [split; [reflexivity|]|split].
      * inv Hp. unfold epay in H1. destruct e as [k [v|a]]; [discriminate|]. cbn. eauto.
      * inv Hp. clear - H2. induction H2 as [|[k p] l Hq _ IH]; cbn; constructor; auto.
        unfold epay in Hq. cbn in Hq. destruct p as [v|a]; [discriminate|]. split; [reflexivity|]. cbn. eauto.
      * rewrite sl_keys. exact Hs1.
    + split.
      * change (slot_of e :: map slot_of l) with (map slot_of (e :: l)). clear - Hp.
        induction Hp as [|[k p] l' Hq _ IH]; cbn; constructor; auto.
        unfold epay in Hq. cbn in Hq. destruct p as [v|a]; [|discriminate]. exists k, v. auto.
      * change (slot_of e :: map slot_of l) with (map slot_of (e :: l)). rewrite sl_keys. cbn.
        constructor; auto. now apply Forall_forall.
  - apply Hhd; auto. apply Hhi. now left.
  - intros k Hk. destruct inner; cbn [rkeys tl map] in Hk.
    + rewrite sl_keys in Hk. exact (Hs2 k Hk).
    + change (slot_of e :: map slot_of l) with (map slot_of (e :: l)) in Hk. rewrite sl_keys in Hk.
      destruct Hk as [<-|Hk]; [apply ele_refl|]. apply elt_ele. exact (Hs2 k Hk).
  - intros k Hk. assert (Hk' : In k (map fst (e :: l))).
    { destruct inner; cbn [rkeys tl map] in Hk.
      - rewrite sl_keys in Hk. now right.
      - change (slot_of e :: map slot_of l) with (map slot_of (e :: l)) in Hk. now rewrite sl_keys in Hk. }
    apply in_map_iff in Hk' as (x & <- & Hx). apply (Hhi x Hx).
  - intros _ x E. inv E. reflexivity.
  - intros _ x E. inv E. reflexivity.
Qed.

Definition prevl (prev : option (addr * anode)) : lvl :=
  match prev with Some pn => [pn] | None => [] end.
Definition prevlnk (prev : option (addr * anode)) (ra : addr) (k : K) : lvl :=
  match prev with Some (p, np) => [(p, lnk np ra k)] | None => [] end.

Definition kin (es : list (K * pay)) (k : K) : Prop := In k (map fst es).

(** Linking one page to another. *)
Lemma link_ok h r f l g G F1 p np F2 q nq k :
  hinv0 RB h f G (F1 ++ (p, np) :: F2) -> a_high np = None -> In (q, nq) F2 ->
  a_low nq = Some k -> kat (a_slots nq) 0 = Some k -> valid k ->
  exists h', link_pages p q (St h r f l g) = Ok tt (St h' r f l g) /\
    hinv0 RB h' f G (F1 ++ (p, lnk np q k) :: F2) /\ grows h f h' f.
Proof.
  intros H Hn Hq Hlow Hk0 Hv.
  destruct (h0_rep _ _ _ _ _ H p np) as (dp & Hdp & Hrp & Hroom); [apply in_or_app; right; now left|].
  destruct (h0_rep _ _ _ _ _ H q nq) as (dq & Hdq & Hrq & _); [apply in_or_app; right; now right|].
  destruct (Hroom Hn) as [Hroom' Hlp].
  destruct (BL_link _ _ q _ _ k Hrp Hroom' Hn Hlp Hrq Hlow Hk0 Hv) as (d' & E & Hr').
  exists (upd h p (Some d')). split; [|split].
  - unfold link_pages. rewrite (mb_getn _ _ _ _ _ _ _ _ Hdp). rewrite (mb_getn _ _ _ _ _ _ _ _ Hdq).
    rewrite (mb_lift _ _ _ _ E). unfold setn. cbn [hp]. rewrite Hdp. reflexivity.
  - eapply hinv0_set; [exact H|]. split; [exact Hr'|]. cbn. discriminate.
  - apply grows_set. congruence.
Qed.

Lemma layer_ok inner G r lks gb0 : forall fu e es prev F h f,
  length (e :: es) <= fu -> esorted (e :: es) -> Forall (epay inner) (e :: es) ->
  (forall x, In x (e :: es) -> valid (fst x)) ->
  hinv0 RB h f G (F ++ prevl prev) ->
  (forall pn, prev = Some pn -> a_high (snd pn) = None) ->
  exists h' f' a0 nodes L,
    bk_layer fu inner (option_map fst prev) (e :: es) (St h r f lks gb0) =
      Ok ((fst e, PP a0) :: nodes) (St h' r f' lks gb0) /\
    hinv0 RB h' f' G (F ++ prevlnk prev a0 (fst e) ++ L) /\ grows h f h' f' /\
    blvl (kin (e :: es)) inner (fst e) L /\ first_addr L None = Some a0 /\
    entries (Key (fst e)) L = map kpe ((fst e, PP a0) :: nodes) /\
    Forall (epay true) ((fst e, PP a0) :: nodes) /\
    (forall x, In x nodes -> kin (e :: es) (fst x)) /\
    length ((fst e, PP a0) :: nodes) <= length (e :: es) /\
    (inner = true -> 2 <= length (e :: es) -> length ((fst e, PP a0) :: nodes) < length (e :: es)) /\
    (if inner then kents (Key (fst e)) L = map kpe (e :: es)
     else map (fun e => (fst e, PV (snd e))) (recs L) = e :: es).
Proof.
  induction fu as [|fu IH]; intros e es prev F h f Hfu Hs Hp Hv H Hprev; [cbn in Hfu; lia|].
  destruct (BL_fill inner e es Hp Hv) as (d & l1 & l2 & Hfill & Esp & Hl1 & Hl2 & Hr & Hroom).
  destruct l1 as [|e1 l1]; [congruence|]. cbn [app] in Esp. injection Esp as <- Ees.
  pose proof Hs as Hs0. unfold esorted in Hs. rewrite Ees in Hs.
  change (e :: l1 ++ l2) with ((e :: l1) ++ l2) in Hs. rewrite map_app in Hs.
  apply SS_app in Hs as (Hs1 & Hs2 & Hs12).
  assert (Hp1 : Forall (epay inner) (e :: l1) /\ Forall (epay inner) l2).
  { rewrite Ees in Hp. change (e :: l1 ++ l2) with ((e :: l1) ++ l2) in Hp. now apply Forall_app in Hp. }
  destruct Hp1 as [Hp1 Hp2].
  set (n := ANode inner false None (Some (fst e)) None (map slot_of (e :: l1))) in *.
  (* the new page *)
  assert (H1 : hinv0 RB (upd h f (Some d)) (S f) G (F ++ prevl prev ++ [(f, n)])).
  { rewrite app_assoc. apply hinv0_new; [now rewrite app_nil_r|]. split; [exact Hr|].
    intros _. split; [exact Hroom|discriminate]. }
  (* the link *)
  assert (H2 : exists h1,
    (match option_map fst prev with Some p => link_pages p f | None => mret tt end) (St (upd h f (Some d)) r (S f) lks gb0)
      = Ok tt (St h1 r (S f) lks gb0) /\
    hinv0 RB h1 (S f) G (F ++ prevlnk prev f (fst e) ++ [(f, n)]) /\ grows (upd h f (Some d)) (S f) h1 (S f)).
  { destruct prev as [[p np]|]; cbn [option_map fst prevl prevlnk] in *.
    - apply (link_ok _ r _ lks gb0 _ F p np [(f, n)] f n (fst e)); auto.
      + exact (Hprev _ eq_refl).
      + now left.
      + apply Hv. now left.
    - exists (upd h f (Some d)). split; [reflexivity|]. split; [exact H1|]. apply grows_refl. }
  destruct H2 as (h1 & Elink & H2 & Hg1).
  assert (Hrun : forall nodes h' f', bk_layer fu inner (Some f) l2 (St h1 r (S f) lks gb0) = Ok nodes (St h' r f' lks gb0) ->
    bk_layer (S fu) inner (option_map fst prev) (e :: es) (St h r f lks gb0) = Ok ((fst e, PP f) :: nodes) (St h' r f' lks gb0)).
  { intros nodes h' f' E. cbn [bk_layer]. rewrite (mb_lift _ _ _ _ Hfill). cbn [fst snd].
    rewrite mb_alloc. rewrite (mb_ok _ _ _ _ _ Elink). rewrite (mb_ok _ _ _ _ _ E). reflexivity. }
  assert (Hg0 : grows h f h1 (S f)) by (eapply grows_trans; [apply grows_new|exact Hg1]).
  destruct l2 as [|e2 l2].
  - (* last node *)
    rewrite app_nil_r in Ees. subst l1.
    exists h1, (S f), f, [], [(f, n)].
    split; [apply Hrun; destruct fu; reflexivity|].
    split; [exact H2|]. split; [exact Hg0|].
    assert (Hw : node_wf sl inner (Key (fst e)) n) by (apply (fill_wf inner e es None None); auto; intros; exact Logic.I).
    split.
    { split.
      - cbn [seg]. split; [exact Hw|]. split; [intros; reflexivity|reflexivity].
      - exists f, n, []. auto.
      - intros x [<-|[]]. exists (fst e). split; auto. now left.
      - intros a m x [E|[]] Hx. inv E. unfold kin. unfold n in Hx. cbn [a_slots] in Hx.
        destruct inner; cbn [rkeys tl map] in Hx.
        + rewrite sl_keys in Hx. now right.
        + change (slot_of e :: map slot_of es) with (map slot_of (e :: es)) in Hx. now rewrite sl_keys in Hx. }
    split; [reflexivity|]. split; [reflexivity|].
    split; [repeat constructor|]. split; [intros x []|]. split; [cbn; lia|]. split; [cbn; lia|].
    destruct inner; cbn [kents recs flat_map snd].
    + unfold n. cbn [a_slots]. cbn [map sents]. rewrite app_nil_r, sl_kents.
      destruct e as [k [v|a]]; [inv Hp1; discriminate|reflexivity].
    + rewrite app_nil_r. unfold n. cbn [a_slots]. now apply sl_live.
  - (* more nodes *)
    destruct (IH e2 l2 (Some (f, n)) (F ++ prevlnk prev f (fst e)) h1 (S f)) as
      (h' & f' & a1 & nodes & L & E & H3 & Hg & Hb & Hfirst & Hent & Hpn & Hkin & Hlen & Hlen2 & Hcont).
    { rewrite Ees in Hfu. cbn in Hfu |- *. rewrite app_length in Hfu. cbn in Hfu. lia. }
    { exact Hs2. } { exact Hp2. }
    { intros x Hx. apply Hv. rewrite Ees. right. apply in_or_app. now right. }
    { rewrite <- app_assoc. exact H2. }
    { intros pn Epn. inv Epn. reflexivity. }
    cbn [option_map fst prevlnk] in *.
    exists h', f', f, ((fst e2, PP a1) :: nodes), ((f, lnk n a1 (fst e2)) :: L).
    split; [now apply Hrun|].
    split; [rewrite <- app_assoc in H3; exact H3|].
    split; [eapply grows_trans; eauto|].
    assert (Hw : node_wf sl inner (Key (fst e)) (lnk n a1 (fst e2))).
    { apply (fill_wf inner e l1 _ (Some (fst e2))); auto.
      intros x Hx. apply Hs12; [now apply in_map|now left]. }
    assert (Hsub : forall x, kin (e2 :: l2) x -> kin (e :: es) x).
    { intros x Hx. unfold kin in *. rewrite Ees. cbn [map]. right. rewrite map_app. apply in_or_app. now right. }
    destruct Hb as [Hb1 Hb2 Hb3 Hb4].
    split.
    { split.
      - cbn [seg]. split; [exact Hw|]. split.
        + intros Hor. cbn [lnk a_next a_inner]. unfold n. cbn [a_inner a_next].
          replace (sl || negb inner) with true; [|destruct Hor as [Hor|Hor]; rewrite Hor; [reflexivity|now rewrite orb_true_r]].
          symmetry. destruct L as [|[b m] L]; [discriminate|]. exact Hfirst.
        + exact Hb1.
      - exists f, (lnk n a1 (fst e2)), L. auto.
      - cbn [entries]. intros x [<-|Hx].
        + exists (fst e). split; auto. now left.
        + destruct (Hb3 x Hx) as (y & -> & Hy). exists y. auto.
      - intros a m x [Ex|Hin] Hx.
        + injection Ex as <- <-. unfold kin. cbn [lnk a_slots] in Hx. unfold n in Hx. cbn [a_slots] in Hx.
          rewrite Ees. destruct inner; cbn [rkeys tl map] in Hx.
          * rewrite sl_keys in Hx. cbn [map]. right. rewrite map_app. apply in_or_app. now left.
          * change (slot_of e :: map slot_of l1) with (map slot_of (e :: l1)) in Hx. rewrite sl_keys in Hx.
            change (e :: l1 ++ e2 :: l2) with ((e :: l1) ++ e2 :: l2). rewrite map_app. apply in_or_app. now left.
        + apply Hsub. eauto. }
    split; [reflexivity|].
    split; [cbn [entries map kpe fst snd]; f_equal; exact Hent|].
    split; [constructor; [reflexivity|exact Hpn]|].
    split.
    { intros x [<-|Hx]; apply Hsub; [now left|auto]. }
    assert (Hll : length (e :: es) = length (e :: l1) + length (e2 :: l2)) by (rewrite Ees; cbn; rewrite app_length; reflexivity).
    split; [rewrite Hll; cbn in *; lia|].
    split.
    { intros Hi H2l. specialize (Hl2 Hi H2l). rewrite Hll. cbn [length] in *. lia. }
    destruct inner; cbn [kents recs flat_map snd].
    + cbn [lnk a_slots]. unfold n. cbn [a_slots map sents]. rewrite sl_kents.
      change (hi_ext _) with (Key (fst e2)). rewrite Hcont. rewrite Ees. cbn [map]. rewrite map_app.
      change (e2 :: l2) with ([e2] ++ l2). cbn [app map].
      apply Forall_inv in Hp1. destruct e as [k [v|a]]; [discriminate|reflexivity].
    + rewrite map_app. unfold recs in Hcont. rewrite Hcont. cbn [lnk a_slots]. unfold n. cbn [a_slots].
      rewrite (sl_live (e :: l1) Hp1), Ees. reflexivity.
Qed.

(** ** Stacks of layers, from the top down to the leaves *)
Fixpoint pstack (Q : K -> Prop) (k : K) (D : list lvl) : Prop :=
  match D with
  | [] => False
  | L :: D' =>
      match D' with
      | [] => blvl Q false k L
      | L' :: _ => blvl Q true k L /\ kents (Key k) L = entries (Key k) L' /\ pstack Q k D'
      end
  end.

Lemma pstack_top Q k L D : pstack Q k (L :: D) -> exists inner, blvl Q inner k L.
Proof. destruct D as [|L' D]; cbn; [eauto|]. intros (H & _). eauto. Qed.

Record ontop (Q : K -> Prop) (k : K) (D : list lvl) (nodes : list (K * pay)) : Prop := {
  ot_stack : pstack Q k D;
  ot_ents : entries (Key k) (hd [] D) = map kpe nodes;
  ot_pay : Forall (epay true) nodes;
  ot_head : exists a0 ns, nodes = (k, PP a0) :: ns;
}.

Lemma ontop_sorted Q k D nodes : ontop Q k D nodes ->
  esorted nodes /\ (forall x, In x nodes -> Q (fst x)).
Proof.
  intros [H1 H2 _ _]. destruct D as [|L D]; [destruct H1|]. apply pstack_top in H1 as [inner H1].
  cbn [hd] in H2. destruct (seg_entries _ _ _ _ _ _ (bl_seg _ _ _ _ H1)) as [He _].
  unfold eok in He. rewrite H2 in He. split.
  - unfold esorted. clear - He. induction nodes as [|[k p] ns IH]; [constructor|]. cbn in *.
    apply StronglySorted_inv in He as [He1 He2]. constructor; [auto|].
    apply Forall_forall. intros x Hx. rewrite Forall_forall in He2.
    apply in_map_iff in Hx as (y & <- & Hy). apply (He2 (Key (fst y))).
    apply in_map_iff. exists (kpe y). split; [reflexivity|now apply in_map].
  - intros x Hx. destruct (bl_ents _ _ _ _ H1 (kpe x)) as (y & E & Hy).
    + rewrite H2. now apply in_map.
    + cbn in E. inv E. exact Hy.
Qed.

Lemma push_ok (Q : K -> Prop) k D nodes fu G r lks gb0 F h f :
  (forall x, Q x -> valid x) ->
  ontop Q k D nodes -> length nodes <= fu -> hinv0 RB h f G F ->
  exists h' f' nodes' L,
    bk_layer fu true None nodes (St h r f lks gb0) = Ok nodes' (St h' r f' lks gb0) /\
    ontop Q k (L :: D) nodes' /\ hinv0 RB h' f' G (F ++ L) /\ grows h f h' f' /\
    length nodes' <= length nodes /\ (2 <= length nodes -> length nodes' < length nodes).
Proof.
  intros Hqv Ho Hfu H. destruct (ontop_sorted _ _ _ _ Ho) as [Hs Hq]. destruct Ho as [O1 O2 O3 O4].
  destruct O4 as (a0 & ns & ->).
  destruct (layer_ok true G r lks gb0 fu (k, PP a0) ns None F h f) as
      (h' & f' & a1 & nodes & L & E & H3 & Hg & Hb & Hfirst & Hent & Hpn & Hkin & Hlen & Hlen2 & Hcont); auto.
  { now rewrite app_nil_r. } { discriminate. }
  cbn [fst option_map prevlnk app] in *.
  exists h', f', ((k, PP a1) :: nodes), L. split; [exact E|]. split.
  - split; auto; [|eauto]. destruct D as [|L0 D]; [destruct O1|].
    cbn [pstack]. split; [|split; [|exact O1]].
    + eapply blvl_weaken; [|exact Hb]. intros x Hx. unfold kin in Hx. apply in_map_iff in Hx as (y & <- & Hy). auto.
    + cbn [hd] in O2. now rewrite O2.
  - auto.
Qed.

Lemma index_ok (Q : K -> Prop) k cap G r lks gb0 : (forall x, Q x -> valid x) -> 1 <= cap ->
  forall fu height D nodes F h f, length nodes <= fu ->
  ontop Q k D nodes -> hinv0 RB h f G F ->
  exists h' f' nodes' X,
    bk_index fu cap height nodes (St h r f lks gb0) =
      Ok (height + length X, nodes') (St h' r f' lks gb0) /\
    ontop Q k (X ++ D) nodes' /\ hinv0 RB h' f' G (concat X ++ F) /\ grows h f h' f' /\
    length nodes' <= cap /\ length X + length nodes' <= length nodes.
Proof.
  intros Hqv Hcap. induction fu as [|fu IH]; intros height D nodes F h f Hfu Ho H.
  - destruct (ot_head _ _ _ _ Ho) as (a0 & ns & ->). cbn in Hfu. lia.
  - cbn [bk_index]. destruct (length nodes <=? cap) eqn:Ec.
    + apply Nat.leb_le in Ec. exists h, f, nodes, []. cbn [app length concat]. rewrite Nat.add_0_r.
      split; [reflexivity|]. split; [auto|]. split; [auto|]. split; [apply grows_refl|]. lia.
    + apply Nat.leb_gt in Ec.
      destruct (push_ok Q k D nodes (S fu) G r lks gb0 F h f Hqv Ho Hfu H) as (h1 & f1 & nodes1 & L & E & Ho1 & H1 & Hg1 & Hl1 & Hl2).
      assert (Hl3 : length nodes1 < length nodes) by (apply Hl2; lia).
      destruct (IH (height + 1) (L :: D) nodes1 (F ++ L) h1 f1) as (h' & f' & nodes' & X & E' & Ho' & H' & Hg' & Hl' & Hl''); [lia|auto|auto|].
      exists h', f', nodes', (X ++ [L]). rewrite (mb_ok _ _ _ _ _ E). split.
      * rewrite E'. f_equal. rewrite app_length. cbn. f_equal. lia.
      * rewrite <- app_assoc. cbn [app]. split; [auto|]. split.
        -- eapply hinv0_perm; [|exact H']. rewrite concat_app. cbn [concat]. rewrite app_nil_r, <- app_assoc.
           apply Permutation_app_head. apply Permutation_app_comm.
        -- split; [eapply grows_trans; eauto|]. rewrite app_length. cbn. lia.
Qed.

(** BulkloadWithSingleThread. *)
Lemma last_app_ne {A} (X : list A) D d : D <> [] -> last (X ++ D) d = last D d.
Proof.
  intros HD. induction X as [|x X IH]; [reflexivity|]. cbn [app]. destruct (X ++ D) as [|y Z] eqn:E.
  - destruct X; cbn in E; [congruence|discriminate].
  - cbn [last]. exact IH.
Qed.

Definition pvs (l : list (K * V)) : list (K * pay) := map (fun e => (fst e, PV (snd e))) l.

Lemma single_ok fu e es G r lks gb0 F h f :
  length (e :: es) <= fu -> esorted (e :: es) -> Forall (epay false) (e :: es) ->
  (forall x, In x (e :: es) -> valid (fst x)) -> hinv0 RB h f G F ->
  exists h' f' nodes D,
    bk_single fu (e :: es) (St h r f lks gb0) = Ok (length D, nodes) (St h' r f' lks gb0) /\
    ontop (kin (e :: es)) (fst e) D nodes /\ hinv0 RB h' f' G (concat D ++ F) /\ grows h f h' f' /\
    pvs (recs (last D [])) = e :: es /\ length D + length nodes <= length (e :: es) + 1 /\
    (forall k d e2 l2, bk_fill false (e :: es) = Some (k, d, e2 :: l2) -> 2 <= length (last D [])).
Proof.
  intros Hfu Hs Hp Hv H.
  destruct (layer_ok false G r lks gb0 fu e es None F h f) as
      (h1 & f1 & a1 & nodes1 & L & E1 & H1 & Hg1 & Hb & Hfirst & Hent & Hpn & Hkin & Hlen & Hlen2 & Hcont); auto.
  { now rewrite app_nil_r. } { discriminate. }
  cbn [fst option_map prevlnk app] in *.
  set (nodes0 := (fst e, PP a1) :: nodes1) in *.
  assert (Ho : ontop (kin (e :: es)) (fst e) [L] nodes0) by (split; cbn; auto; unfold nodes0; eauto).
  assert (Hval : forall x, kin (e :: es) x -> valid x).
  { intros x Hx. unfold kin in Hx. apply in_map_iff in Hx as (y & <- & Hy). auto. }
  destruct (index_ok (kin (e :: es)) (fst e) bk_cap G r lks gb0 Hval BL_cap fu 1 [L] nodes0 (F ++ L) h1 f1) as (h' & f' & nodes' & X & E' & Ho' & H' & Hg' & Hl' & Hl'').
  { lia. } { exact Ho. } { exact H1. }
  exists h', f', nodes', (X ++ [L]). split.
  { unfold bk_single. rewrite (mb_ok _ _ _ _ _ E1). rewrite E'. f_equal. rewrite app_length. cbn. f_equal. lia. }
  split; [auto|]. split.
  { eapply hinv0_perm; [|exact H']. rewrite concat_app. cbn [concat]. rewrite app_nil_r, <- app_assoc.
    apply Permutation_app_head. apply Permutation_app_comm. }
  split; [eapply grows_trans; eauto|].
  rewrite last_app_ne by discriminate. cbn [last]. split; [exact Hcont|].
  split; [rewrite app_length; cbn in *; lia|].
  intros k d e2 l2 Hf.
  assert (HL : length L = length nodes0) by (rewrite <- (map_length kpe nodes0), <- Hent, <- (map_length snd (entries _ _)), entries_addrs; now rewrite map_length).
  rewrite HL. unfold nodes0. destruct fu as [|fu]; [cbn in Hfu; lia|]. cbn [bk_layer] in E1.
  rewrite (mb_lift _ _ _ _ Hf) in E1. cbn [fst snd] in E1. rewrite mb_alloc in E1. rewrite mb_ret in E1.
  destruct fu as [|fu]; [discriminate|]. cbn [bk_layer] in E1.
  unfold mbind at 1 in E1.
  destruct (mbind (mlift (bk_fill false (e2 :: l2))) _ _) as [x s| | |] eqn:E2 in E1; try discriminate.
  assert (Hne : x <> []).
  { clear - E2. unfold mbind in E2 at 1. destruct (mlift _ _) as [y s0| | |]; try discriminate.
    unfold mbind in E2 at 1. destruct (alloc _ _) as [y1 s1| | |]; try discriminate.
    unfold mbind in E2 at 1. destruct (link_pages _ _ _) as [y2 s2| | |]; try discriminate.
    unfold mbind in E2 at 1. destruct (bk_layer _ _ _ _ _) as [y3 s3| | |]; try discriminate.
    unfold mret in E2. inv E2. discriminate. }
  unfold mret in E1. inv E1. destruct nodes1; [congruence|]. cbn. lia.
Qed.

(** ** Linking two partial trees *)
Definition ljoined (L1 L2 : lvl) (k : K) (L : lvl) : Prop :=
  exists X p np q nq Y, L1 = X ++ [(p, np)] /\ L2 = (q, nq) :: Y /\ L = X ++ (p, lnk np q k) :: L2.

Definition qor (Q1 Q2 : K -> Prop) (k : K) : Prop := Q1 k \/ Q2 k.

Lemma seg_last_high inner lo X p np : seg sl inner lo (X ++ [(p, np)]) PosInf None ->
  a_high np = None /\ node_wf sl inner (lasthi lo X) np.
Proof.
  intros H. apply seg_app in H as [_ H]. cbn [seg] in H. destruct H as (W & _ & E).
  split; auto. unfold hi_ext in E. destruct (a_high np); [discriminate|reflexivity].
Qed.

Lemma wf_lnk inner lo n ra k : node_wf sl inner lo n -> elt lo (Key k) ->
  (forall x, In x (rkeys inner (a_slots n)) -> klt x k) -> node_wf sl inner lo (lnk n ra k).
Proof.
  intros [W1 W2 W3 W4 W5 W6 W7 W8] Hlo Hk. split; cbn [lnk a_inner a_removed a_slots a_low]; auto.
Qed.

Lemma sents_app_lo lo X p np : lasthi lo (X ++ [(p, np)]) = hi_ext np.
Proof. now rewrite lasthi_app. Qed.

Lemma blvl_join Q1 Q2 inner k1 k2 L1 L2 L : blvl Q1 inner k1 L1 -> blvl Q2 inner k2 L2 ->
  (forall x, Q1 x -> klt x k2) -> ljoined L1 L2 k2 L ->
  blvl (qor Q1 Q2) inner k1 L /\
  entries (Key k1) L = entries (Key k1) L1 ++ entries (Key k2) L2 /\
  kents (Key k1) L = kents (Key k1) L1 ++ kents (Key k2) L2 /\
  recs L = recs L1 ++ recs L2.
Proof.
  intros B1 B2 Hlt (X & p & np & q & nq & Y & -> & E2 & ->).
  destruct (seg_last_high _ _ _ _ _ (bl_seg _ _ _ _ B1)) as [Hh Hw].
  assert (Elo : exists x, lasthi (Key k1) X = Key x /\ Q1 x).
  { destruct (bl_ents _ _ _ _ B1 (lasthi (Key k1) X, p)) as (x & E & Hx); [|exists x; auto].
    rewrite entries_app. apply in_or_app. right. now left. }
  destruct Elo as (x0 & Elo & Hx0).
  assert (Hw' : node_wf sl inner (lasthi (Key k1) X) (lnk np q k2)).
  { apply wf_lnk; auto.
    - rewrite Elo. cbn. auto.
    - intros x Hx. apply Hlt. eapply (bl_keys _ _ _ _ B1 p np); eauto. apply in_or_app. right. now left. }
  assert (Een : entries (Key k1) (X ++ (p, lnk np q k2) :: L2) = entries (Key k1) (X ++ [(p, np)]) ++ entries (Key k2) L2).
  { rewrite !entries_app, <- app_assoc. f_equal. }
  split; [|split; [exact Een|split]].
  - split.
    + apply seg_app. pose proof (bl_seg _ _ _ _ B1) as S1. apply seg_app in S1 as [S1 S1'].
      split; [exact S1|]. cbn [seg]. split; [exact Hw'|]. split.
      * intros Hor. cbn [lnk a_next]. rewrite (nw_inner _ _ _ _ Hw).
        replace (sl || negb inner) with true; [|destruct Hor as [Hor|Hor]; rewrite Hor; [reflexivity|now rewrite orb_true_r]].
        rewrite E2. reflexivity.
      * exact (bl_seg _ _ _ _ B2).
    + destruct (bl_head _ _ _ _ B1) as (a & n & L' & E & Hl & Hk). destruct X as [|[b m] X].
      * cbn [app] in *. inv E. exists a, (lnk n q k2), ((q, nq) :: Y). auto.
      * cbn [app] in *. inv E. eexists _, _, _. split; [reflexivity|]. auto.
    + intros e He. rewrite Een in He. apply in_app_or in He as [He|He].
      * destruct (bl_ents _ _ _ _ B1 e He) as (x & E & Hx). exists x. split; auto. now left.
      * destruct (bl_ents _ _ _ _ B2 e He) as (x & E & Hx). exists x. split; auto. now right.
    + intros a n x Hin Hx. apply in_app_or in Hin as [Hin|[Hin|Hin]].
      * left. apply (bl_keys _ _ _ _ B1 a n x); [apply in_or_app; now left|exact Hx].
      * injection Hin as <- <-. left. apply (bl_keys _ _ _ _ B1 p np x); [apply in_or_app; right; now left|exact Hx].
      * right. exact (bl_keys _ _ _ _ B2 a n x Hin Hx).
  - rewrite !kents_app, <- app_assoc. f_equal. cbn [kents]. rewrite app_nil_r. f_equal.
  - rewrite !recs_app. rewrite <- app_assoc. f_equal. unfold recs. cbn [flat_map snd]. now rewrite app_nil_r.
Qed.

Lemma sents_kids lo l : map snd (sents lo l) = map kid l.
Proof. destruct l as [|s l]; [reflexivity|]. cbn. f_equal. rewrite map_map. reflexivity. Qed.

Lemma bk_inner_of d n : RB d n -> bk_inner d = a_inner n /\ bk_rc d = length (a_slots n).
Proof. intros [H _]. now apply BL_hdr. Qed.

Lemma inner_child inner lo n i s : node_wf sl inner lo n -> inner = true -> nth_error (a_slots n) i = Some s ->
  s_pay s = PP (kid s).
Proof.
  intros W -> Hi. pose proof (nw_body _ _ _ _ W) as Hb. cbn in Hb.
  assert (Hin : In s (a_slots n)) by (eapply nth_error_In; eauto).
  destruct (a_slots n) as [|s0 l]; [destruct Hb|]. destruct Hb as ((_ & a & Ha) & Hb & _).
  unfold kid. destruct Hin as [<-|Hin].
  - now rewrite Ha.
  - rewrite Forall_forall in Hb. destruct (Hb s Hin) as (_ & k & a' & _ & Ha'). now rewrite Ha'.
Qed.

Lemma last_snoc {A} (l : list A) : l <> [] -> exists l' x, l = l' ++ [x].
Proof. intros H. destruct (exists_last H) as (l' & x & E). eauto. Qed.

Lemma vlink_ok (Q1 Q2 : K -> Prop) k1 k2 G r lks gb0 : (forall x, Q1 x -> klt x k2) -> valid k2 ->
  forall D1 D2 fu F0 h f X p np q nq Y,
  length D1 = length D2 -> length D1 <= fu ->
  pstack Q1 k1 D1 -> pstack Q2 k2 D2 ->
  hd [] D1 = X ++ [(p, np)] -> hd [] D2 = (q, nq) :: Y ->
  hinv0 RB h f G (concat D1 ++ concat D2 ++ F0) ->
  exists h' D,
    bk_vlink fu p q (St h r f lks gb0) = Ok tt (St h' r f lks gb0) /\
    pstack (qor Q1 Q2) k1 D /\ length D = length D1 /\
    hinv0 RB h' f G (concat D ++ F0) /\ grows h f h' f /\
    entries (Key k1) (hd [] D) = entries (Key k1) (hd [] D1) ++ entries (Key k2) (hd [] D2) /\
    recs (last D []) = recs (last D1 []) ++ recs (last D2 []) /\
    length (last D []) = length (last D1 []) + length (last D2 []).
Proof.
  intros Hlt Hv. induction D1 as [|L1 D1 IH]; intros D2 fu F0 h f X p np q nq Y El Hfu S1 S2 E1 E2 H; [destruct S1|].
  destruct D2 as [|L2 D2]; [destruct S2|]. destruct fu as [|fu]; [cbn in Hfu; lia|].
  cbn [hd] in E1, E2. subst L1.
  destruct (pstack_top _ _ _ _ S1) as [i1 T1]. destruct (pstack_top _ _ _ _ S2) as [i2 T2].
  assert (Ei : i1 = match D1 with [] => false | _ => true end /\ i2 = i1).
  { assert (G1 : forall Q k L D i, pstack Q k (L :: D) -> blvl Q i k L -> i = match D with [] => false | _ => true end).
    { intros Q k L D i A1 A2. destruct (bl_head _ _ _ _ A2) as (a & n & L' & -> & _).
      pose proof (bl_seg _ _ _ _ A2) as S. cbn [seg] in S. destruct S as (W & _). apply nw_inner in W.
      destruct D; cbn [pstack] in A1; [|destruct A1 as [A1 _]];
        pose proof (bl_seg _ _ _ _ A1) as S'; cbn [seg] in S'; destruct S' as (W' & _); apply nw_inner in W'; congruence. }
    rewrite (G1 _ _ _ _ _ S1 T1), (G1 _ _ _ _ _ S2 T2). split; auto. destruct D1, D2; cbn in El; auto; discriminate. }
  destruct Ei as [Ei1 Ei2]. subst i2.
  destruct (seg_last_high _ _ _ _ _ (bl_seg _ _ _ _ T1)) as [Hh Hw].
  assert (Hhd2 : a_low nq = Some k2 /\ kat (a_slots nq) 0 = Some k2).
  { destruct (bl_head _ _ _ _ T2) as (a & n & L' & E & A & B'). rewrite E2 in E. inv E. auto. }
  destruct Hhd2 as [Hlow Hkat].
  set (L := X ++ (p, lnk np q k2) :: L2).
  assert (HJ : ljoined (X ++ [(p, np)]) L2 k2 L) by (exists X, p, np, q, nq, Y; auto).
  destruct (blvl_join _ _ _ _ _ _ _ _ T1 T2 Hlt HJ) as (BJ & EJ & KJ & RJ).
  assert (LJ : length L = length (X ++ [(p, np)]) + length L2) by (unfold L; rewrite !app_length; cbn; lia).
  (* the link at this level *)
  assert (Hp1 : Permutation (concat ((X ++ [(p, np)]) :: D1) ++ concat (L2 :: D2) ++ F0)
                  (X ++ (p, np) :: L2 ++ concat D1 ++ concat D2 ++ F0)).
  { cbn [concat]. rewrite <- !app_assoc. apply Permutation_app_head. cbn [app]. apply perm_skip.
    rewrite !app_assoc. apply Permutation_app_tail. apply Permutation_app_tail. apply Permutation_app_comm. }
  destruct (link_ok h r f lks gb0 G X p np (L2 ++ concat D1 ++ concat D2 ++ F0) q nq k2) as (h1 & El1 & H1 & Hg1).
  { eapply hinv0_perm; [exact Hp1|exact H]. } { exact Hh. } { rewrite E2. now left. } { exact Hlow. } { exact Hkat. } { exact Hv. }
  destruct (h0_rep _ _ _ _ _ H1 p (lnk np q k2)) as (dp & Hdp & Hrp); [apply in_or_app; right; now left|].
  destruct (h0_rep _ _ _ _ _ H1 q nq) as (dq & Hdq & Hrq); [apply in_or_app; right; right; rewrite E2; now left|].
  destruct (bk_inner_of _ _ Hrp) as [Ip Rp]. cbn [lnk a_inner a_slots] in Ip, Rp. rewrite (nw_inner _ _ _ _ Hw) in Ip.
  cbn [bk_vlink]. 
  destruct D1 as [|L1' D1].
  - (* the leaves *)
    destruct D2 as [|? ?]; [|discriminate]. subst i1.
    exists h1, [L]. rewrite (mb_ok _ _ _ _ _ El1). rewrite (mb_getn _ _ _ _ _ _ _ _ Hdp). rewrite Ip.
    split; [reflexivity|]. split; [exact BJ|]. split; [reflexivity|]. split.
    { eapply hinv0_perm; [|exact H1]. cbn [concat]. rewrite app_nil_r. unfold L. rewrite <- app_assoc. reflexivity. }
    split; [exact Hg1|]. cbn [hd last]. split; [exact EJ|]. split; [exact RJ|exact LJ].
  - destruct D2 as [|L2' D2]; [discriminate|]. subst i1.
    cbn [pstack] in S1, S2. destruct S1 as (_ & K1 & S1). destruct S2 as (_ & K2 & S2).
    (* the children *)
    destruct (last_snoc (a_slots np)) as (sl0 & s & Es).
    { pose proof (nw_body _ _ _ _ Hw) as Hb. cbn in Hb. destruct (a_slots np); [destruct Hb|discriminate]. }
    destruct (last_snoc L1') as (X' & [p' np'] & EL1').
    { destruct (pstack_top _ _ _ _ S1) as [i T]. destruct (bl_head _ _ _ _ T) as (? & ? & ? & -> & _). discriminate. }
    assert (Ep' : kid s = p').
    { apply (f_equal (map snd)) in K1. rewrite entries_addrs, kents_app, map_app in K1. cbn [kents] in K1.
      rewrite app_nil_r, sents_kids, Es, EL1', !map_app, app_assoc in K1. cbn [map fst] in K1.
      apply app_inj_tail in K1 as [_ K1]. exact K1. }
    assert (Hq' : exists s0 slr q' nq' Y', a_slots nq = s0 :: slr /\ L2' = (q', nq') :: Y' /\ kid s0 = q').
    { destruct (pstack_top _ _ _ _ S2) as [i T]. destruct (bl_head _ _ _ _ T) as (q' & nq' & Y' & E' & _).
      destruct (a_slots nq) as [|s0 slr] eqn:Esq.
      - cbn in Hkat. discriminate.
      - exists s0, slr, q', nq', Y'. split; auto. split; auto.
        rewrite E2, E' in K2. cbn [kents entries] in K2. rewrite Esq in K2. cbn [sents app] in K2. now inv K2. }
    destruct Hq' as (s0 & slr & q' & nq' & Y' & Esq & EL2' & Eq').
    assert (Wq : node_wf sl true (Key k2) nq).
    { pose proof (bl_seg _ _ _ _ T2) as S. rewrite E2 in S. cbn [seg] in S. tauto. }
    assert (Hcl : bk_child dp (bk_rc dp - 1) = Some p').
    { rewrite Rp. apply (BL_child dp (lnk np q k2) _ s); cbn [lnk a_inner a_slots].
      - exact (proj1 Hrp).
      - exact (nw_inner _ _ _ _ Hw).
      - rewrite Es, app_length. cbn [length]. rewrite nth_error_app2 by lia.
        replace (length sl0 + 1 - 1 - length sl0) with 0 by lia. reflexivity.
      - rewrite <- Ep'. apply (inner_child true (lasthi (Key k1) X) np (length sl0) s Hw eq_refl).
        rewrite Es. apply nth_error_mid. }
    assert (Hcr : bk_child dq 0 = Some q').
    { apply (BL_child dq nq 0 s0).
      - exact (proj1 Hrq).
      - exact (nw_inner _ _ _ _ Wq).
      - now rewrite Esq.
      - rewrite <- Eq'. apply (inner_child true (Key k2) nq 0 s0 Wq eq_refl). now rewrite Esq. }
    destruct (IH (L2' :: D2) fu (L ++ F0) h1 f X' p' np' q' nq' Y') as
      (h' & D & Er & SJ & Len & H' & Hg' & EnJ & RcJ & LnJ); auto.
    { cbn in Hfu |- *. lia. }
    { eapply hinv0_perm; [|exact H1].
      replace (X ++ (p, lnk np q k2) :: L2 ++ concat (L1' :: D1) ++ concat (L2' :: D2) ++ F0)
        with (L ++ concat (L1' :: D1) ++ concat (L2' :: D2) ++ F0) by (unfold L; now rewrite <- app_assoc).
      etransitivity; [apply Permutation_app_swap_app|]. apply Permutation_app_head. apply Permutation_app_swap_app. }
    exists h', (L :: D). rewrite (mb_ok _ _ _ _ _ El1). rewrite (mb_getn _ _ _ _ _ _ _ _ Hdp). rewrite Ip.
    rewrite (mb_lift _ _ _ _ Hcl). rewrite (mb_getn _ _ _ _ _ _ _ _ Hdq). rewrite (mb_lift _ _ _ _ Hcr).
    split; [exact Er|]. destruct D as [|L' D]; [destruct SJ|].
    split.
    { cbn [pstack]. split; [exact BJ|]. split; [|exact SJ]. rewrite KJ, K1, K2. cbn [hd] in EnJ. now rewrite EnJ. }
    split; [cbn in Len |- *; lia|]. split.
    { eapply hinv0_perm; [|exact H']. change (concat (L :: L' :: D)) with (L ++ concat (L' :: D)).
      rewrite <- app_assoc. apply Permutation_app_swap_app. }
    split; [eapply grows_trans; eauto|]. split; [exact EJ|]. split; [exact RcJ|exact LnJ].
Qed.

(** ** Partial trees built by several workers *)
Lemma align_ok (Q : K -> Prop) k G r lks gb0 fu : (forall x, Q x -> valid x) ->
  forall todo D nodes F h f, length nodes <= fu ->
  ontop Q k D nodes -> hinv0 RB h f G F ->
  exists h' f' nodes' X,
    bk_align fu todo nodes (St h r f lks gb0) = Ok nodes' (St h' r f' lks gb0) /\
    ontop Q k (X ++ D) nodes' /\ length X = todo /\ hinv0 RB h' f' G (concat X ++ F) /\
    grows h f h' f' /\ length nodes' <= length nodes.
Proof.
  intros Hqv. induction todo as [|todo IH]; intros D nodes F h f Hfu Ho H.
  - exists h, f, nodes, []. cbn. split; [reflexivity|]. split; [exact Ho|]. split; [reflexivity|].
    split; [exact H|]. split; [apply grows_refl|lia].
  - cbn [bk_align].
    destruct (push_ok Q k D nodes fu G r lks gb0 F h f Hqv Ho Hfu H) as (h1 & f1 & nodes1 & L & E & Ho1 & H1 & Hg1 & Hl1 & _).
    destruct (IH (L :: D) nodes1 (F ++ L) h1 f1) as (h' & f' & nodes' & X & E' & Ho' & HX & H' & Hg' & Hl'); [lia|auto|auto|].
    exists h', f', nodes', (X ++ [L]). rewrite (mb_ok _ _ _ _ _ E).
    split; [exact E'|]. rewrite <- app_assoc. cbn [app]. split; [auto|]. split; [rewrite app_length; cbn; lia|]. split.
    + eapply hinv0_perm; [|exact H']. rewrite concat_app. cbn [concat]. rewrite app_nil_r, <- app_assoc.
      apply Permutation_app_head. apply Permutation_app_comm.
    + split; [eapply grows_trans; eauto|lia].
Qed.

(** One partial tree for the slice [es]. *)
Definition part (fu H : nat) (es : list (K * pay)) (hn : nat * list (K * pay)) (D : list lvl) : Prop :=
  exists e es', es = e :: es' /\ ontop (kin es) (fst e) D (snd hn) /\ length D = fst hn /\
    pvs (recs (last D [])) = es /\ length (snd hn) <= length es /\ length es <= fu /\ fst hn <= H.

Fixpoint parts (fu H : nat) (sls : list (list (K * pay))) (ps : list (nat * list (K * pay))) (Ds : list (list lvl)) : Prop :=
  match sls, ps, Ds with
  | [], [], [] => True
  | es :: sls', p :: ps', D :: Ds' => part fu H es p D /\ parts fu H sls' ps' Ds'
  | _, _, _ => False
  end.

Definition slice_ok (fu : nat) (es : list (K * pay)) : Prop :=
  es <> [] /\ length es <= fu /\ esorted es /\ Forall (epay false) es /\
  (forall x, In x es -> valid (fst x)).

Lemma partials_ok fu N G r lks gb0 : N <= fu -> forall sls height F h f,
  Forall (slice_ok N) sls -> height <= N -> hinv0 RB h f G F ->
  exists h' f' H ps Ds,
    bk_partials fu sls height (St h r f lks gb0) = Ok (H, ps) (St h' r f' lks gb0) /\
    parts fu H sls ps Ds /\ height <= H <= N /\
    hinv0 RB h' f' G (concat (map (@concat _) Ds) ++ F) /\ grows h f h' f'.
Proof.
  intros HN. induction sls as [|es sls IH]; intros height F h f Hsl Hh H.
  - exists h, f, height, [], []. cbn. split; [reflexivity|]. split; [exact Logic.I|]. split; [lia|].
    split; [exact H|apply grows_refl].
  - apply Forall_cons_iff in Hsl as [(S1 & S2 & S3 & S4 & S5) Hsl]. destruct es as [|e es]; [congruence|].
    destruct (single_ok fu e es G r lks gb0 F h f (Nat.le_trans _ _ _ S2 HN) S3 S4 S5 H) as (h1 & f1 & nodes & D & E & Ho & H1 & Hg1 & Hrec & Hlen & _).
    destruct (ot_head _ _ _ _ Ho) as (a0 & ns & En).
    assert (HD : length D <= length (e :: es)) by (rewrite En in Hlen; cbn in Hlen |- *; lia).
    assert (HDn : length nodes <= length (e :: es)).
    { assert (1 <= length D); [|lia]. pose proof (ot_stack _ _ _ _ Ho) as HS. destruct D; [destruct HS|cbn; lia]. }
    set (height' := if height <? length D then length D else height).
    assert (Hh' : height <= height' /\ length D <= height' <= N).
    { unfold height'. destruct (Nat.ltb_spec height (length D)); lia. }
    destruct (IH height' (concat D ++ F) h1 f1 Hsl) as (h' & f' & HH & ps & Ds & E' & Hps & HHl & H' & Hg'); [lia|exact H1|].
    exists h', f', HH, ((length D, nodes) :: ps), (D :: Ds).
    split; [cbn [bk_partials]; rewrite (mb_ok _ _ _ _ _ E); cbn [fst snd]; fold height'; rewrite (mb_ok _ _ _ _ _ E'); reflexivity|].
    split.
    { split; [|exact Hps]. exists e, es. cbn [fst snd]. split; [reflexivity|]. split; [exact Ho|].
      split; [reflexivity|]. split; [exact Hrec|]. lia. }
    split; [lia|]. split; [|eapply grows_trans; eauto].
    eapply hinv0_perm; [|exact H']. cbn [map concat]. rewrite <- app_assoc. apply Permutation_app_swap_app.
Qed.

Lemma kpe_addr nodes : Forall (epay true) nodes -> forall x, In x nodes -> snd x = PP (snd (kpe x)).
Proof.
  intros H x Hx. rewrite Forall_forall in H. specialize (H x Hx). unfold epay in H. unfold kpe.
  destruct (snd x); [discriminate|reflexivity].
Qed.

Lemma ontop_front Q k D nodes : ontop Q k D nodes -> exists q nq Y,
  hd [] D = (q, nq) :: Y /\ front nodes = Some q.
Proof.
  intros [O1 O2 O3 (a0 & ns & ->)]. cbn in O2. destruct (hd [] D) as [|[q nq] Y]; [discriminate|].
  cbn in O2. inv O2. exists a0, nq, Y. auto.
Qed.

Lemma ontop_back Q k D nodes : ontop Q k D nodes -> exists X p np,
  hd [] D = X ++ [(p, np)] /\ back nodes = Some p.
Proof.
  intros [O1 O2 O3 (a0 & ns & E)].
  destruct (last_snoc nodes) as (n0 & [kx px] & En); [rewrite E; discriminate|]. clear E.
  pose proof (kpe_addr _ O3 (kx, px)) as Hp. rewrite En in Hp, O2. rewrite map_app in O2. cbn [map] in O2.
  specialize (Hp (in_elt _ _ _)). cbn [snd] in Hp.
  destruct (last_snoc (hd [] D)) as (X & [p np] & EL).
  { intros E. rewrite E in O2. cbn in O2. destruct n0; discriminate. }
  exists X, p, np. split; [exact EL|]. unfold back. rewrite En, rev_app_distr. cbn [rev app front pay_addr snd].
  unfold pay_addr. cbn [snd]. rewrite Hp. rewrite EL, entries_app in O2. cbn [entries] in O2.
  apply app_inj_tail in O2 as [_ O2]. unfold kpe in O2. cbn [fst snd] in O2. rewrite Hp in O2. cbn in O2. inv O2. reflexivity.
Qed.

Lemma pstack_weaken (Q Q' : K -> Prop) k D : (forall x, Q x -> Q' x) -> pstack Q k D -> pstack Q' k D.
Proof.
  intros Hq. induction D as [|L D IH]; [auto|]. cbn [pstack]. destruct D as [|L' D].
  - apply blvl_weaken; auto.
  - intros (A & B' & C). split; [eapply blvl_weaken; eauto|]. auto.
Qed.

Lemma ontop_nonempty Q k D nodes : ontop Q k D nodes -> D <> [].
Proof. intros [H _ _ _] ->. exact H. Qed.

Lemma pstack_leaf_ne Q k D : pstack Q k D -> 1 <= length (last D []).
Proof.
  induction D as [|L D IH]; [intros []|]. cbn [pstack]. destruct D as [|L' D].
  - intros B1. destruct (bl_head _ _ _ _ B1) as (? & ? & ? & -> & _). cbn. lia.
  - intros (_ & _ & H). exact (IH H).
Qed.

Lemma join_ok fu H G r lks gb0 : H <= fu -> forall sls ps Ds ea ka Dacc na l F h f,
  parts fu H sls ps Ds -> esorted (ea ++ concat sls) ->
  (forall x, In x (ea ++ concat sls) -> valid (fst x)) ->
  ontop (kin ea) ka Dacc na -> length Dacc = H -> pvs (recs (last Dacc [])) = ea ->
  back na = Some l ->
  hinv0 RB h f G (concat Dacc ++ concat (map (@concat _) Ds) ++ F) ->
  exists h' f' nodes D,
    bk_join fu H (Some l) ps (St h r f lks gb0) = Ok nodes (St h' r f' lks gb0) /\
    ontop (kin (ea ++ concat sls)) ka D (na ++ nodes) /\ length D = H /\
    pvs (recs (last D [])) = ea ++ concat sls /\ hinv0 RB h' f' G (concat D ++ F) /\ grows h f h' f' /\
    length (last Dacc []) + length sls <= length (last D []) /\
    length nodes <= length (concat sls).
Proof.
  intros HH. induction sls as [|es sls IH]; intros ps Ds ea ka Dacc na l F h f Hps Hs Hv Ho HD Hrec Hl H0.
  - destruct ps as [|? ?]; [|destruct Hps]. destruct Ds; [|destruct Hps].
    exists h, f, [], Dacc. cbn [map concat] in *. rewrite !app_nil_r in *. cbn [length].
    split; [reflexivity|]. split; [exact Ho|]. split; [exact HD|]. split; [exact Hrec|]. split; [exact H0|].
    split; [apply grows_refl|]. lia.
  - destruct ps as [|[hh nodes] ps]; [destruct Hps|]. destruct Ds as [|D1 Ds]; [destruct Hps|].
    destruct Hps as [(e & es' & Ees & Hop & HlD1 & Hrec1 & Hln & Hle & HhH) Hps]. cbn [fst snd] in *.
    assert (Hs' : esorted (ea ++ es) /\ esorted ((ea ++ es) ++ concat sls) /\
                  (forall x y, kin ea x -> kin es y -> klt x y)).
    { unfold esorted in *. cbn [concat] in Hs. rewrite app_assoc in Hs. split; [|split; [exact Hs|]].
      - rewrite map_app in Hs. now apply SS_app in Hs.
      - rewrite !map_app in Hs. apply SS_app in Hs as (Hs & _). apply SS_app in Hs as (_ & _ & Hs). exact Hs. }
    destruct Hs' as (Hs1 & Hs2 & Hs3).
    assert (Hvs : forall x, kin es x -> valid x).
    { intros x Hx. apply in_map_iff in Hx as (y & <- & Hy). apply Hv. apply in_or_app. right. cbn [concat]. apply in_or_app. now left. }
    (* align *)
    destruct (align_ok (kin es) (fst e) G r lks gb0 fu Hvs (H - hh) D1 nodes
                (concat Dacc ++ concat (map (@concat _) (D1 :: Ds)) ++ F) h f) as
      (h1 & f1 & nodes1 & X & E1 & Ho1 & HX & H1 & Hg1 & Hl1); [lia|exact Hop|exact H0|].
    set (D2 := X ++ D1) in *.
    assert (HD2 : length D2 = H) by (unfold D2; rewrite app_length; lia).
    assert (Hrec2 : pvs (recs (last D2 [])) = es).
    { unfold D2. rewrite last_app_ne by (eapply ontop_nonempty; eauto). exact Hrec1. }
    assert (H2 : hinv0 RB h1 f1 G (concat Dacc ++ concat D2 ++ concat (map (@concat _) Ds) ++ F)).
    { eapply hinv0_perm; [|exact H1]. unfold D2. rewrite concat_app. cbn [map concat].
      rewrite <- !app_assoc. apply Permutation_app_swap_app. }
    destruct (ontop_front _ _ _ _ Ho1) as (q & nq & Y & Eq & Fq).
    destruct (ontop_back _ _ _ _ Ho) as (X0 & p & np & Ep & Bp). rewrite Hl in Bp. injection Bp as ->.
    destruct (ontop_back _ _ _ _ Ho1) as (X1 & l1 & np1 & Ep1 & Bp1).
    (* link *)
    assert (Hke : kin es (fst e)) by (rewrite Ees; now left).
    destruct (vlink_ok (kin ea) (kin es) ka (fst e) G r lks gb0 (fun x Hx => Hs3 x _ Hx Hke) (Hvs _ Hke)
                Dacc D2 fu (concat (map (@concat _) Ds) ++ F) h1 f1 X0 p np q nq Y) as
      (h2 & D3 & E2 & HSt & HL3 & H3 & Hg2 & He3 & Hr3 & Hn3).
    { congruence. } { lia. } { exact (ot_stack _ _ _ _ Ho). } { exact (ot_stack _ _ _ _ Ho1). }
    { exact Ep. } { exact Eq. } { exact H2. }
    assert (Ho3 : ontop (kin (ea ++ es)) ka D3 (na ++ nodes1)).
    { split.
      - eapply pstack_weaken; [|exact HSt]. intros x [Hx|Hx]; unfold kin; rewrite map_app; apply in_or_app; auto.
      - rewrite He3, (ot_ents _ _ _ _ Ho), (ot_ents _ _ _ _ Ho1). now rewrite map_app.
      - apply Forall_app. split; [exact (ot_pay _ _ _ _ Ho)|exact (ot_pay _ _ _ _ Ho1)].
      - destruct (ot_head _ _ _ _ Ho) as (a0 & ns & ->). cbn. eauto. }
    assert (Hrec3 : pvs (recs (last D3 [])) = ea ++ es).
    { rewrite Hr3. unfold pvs. rewrite map_app. fold (pvs (recs (last Dacc []))). fold (pvs (recs (last D2 []))).
      rewrite Hrec, Hrec2. reflexivity. }
    destruct (IH ps Ds (ea ++ es) ka D3 (na ++ nodes1) l1 F h2 f1) as
      (h' & f' & rest & D & E3 & Ho' & HL' & Hr' & H' & Hg' & Hn' & Hlr); auto.
    { intros x Hx. apply Hv. cbn [concat]. now rewrite app_assoc. }
    { congruence. }
    { unfold back in *. rewrite rev_app_distr. destruct (rev nodes1); [discriminate|exact Bp1]. }
    exists h', f', (nodes1 ++ rest), D. split.
    { cbn [bk_join]. rewrite (mb_ok _ _ _ _ _ E1). rewrite mb_assoc. rewrite (mb_lift _ _ _ _ Fq).
      rewrite (mb_ok _ _ _ _ _ E2). rewrite (mb_lift _ _ _ _ Bp1). rewrite (mb_ok _ _ _ _ _ E3). reflexivity. }
    split.
    { rewrite app_assoc. cbn [concat]. rewrite app_assoc. exact Ho'. }
    split; [exact HL'|]. split; [cbn [concat]; rewrite app_assoc; exact Hr'|]. split; [exact H'|].
    split; [eapply grows_trans; [exact Hg1|]; eapply grows_trans; eauto|].
    split; [|cbn [concat]; rewrite !app_length; lia].
    pose proof (pstack_leaf_ne _ _ _ (ot_stack _ _ _ _ Ho1)). cbn [length]. lia.
Qed.

(** The first partial tree has nothing to its left. *)
Lemma join_all fu H G r lks gb0 es sls ps Ds F h f : H <= fu ->
  parts fu H (es :: sls) ps Ds -> esorted (es ++ concat sls) ->
  (forall x, In x (es ++ concat sls) -> valid (fst x)) ->
  hinv0 RB h f G (concat (map (@concat _) Ds) ++ F) ->
  exists e h' f' nodes D, hd_error es = Some e /\
    bk_join fu H None ps (St h r f lks gb0) = Ok nodes (St h' r f' lks gb0) /\
    ontop (kin (es ++ concat sls)) (fst e) D nodes /\ length D = H /\
    pvs (recs (last D [])) = es ++ concat sls /\ hinv0 RB h' f' G (concat D ++ F) /\ grows h f h' f' /\
    length (es :: sls) <= length (last D []) /\ length nodes <= length (es ++ concat sls).
Proof.
  intros HH Hps Hs Hv H0.
  destruct ps as [|[hh nodes] ps]; [destruct Hps|]. destruct Ds as [|D1 Ds]; [destruct Hps|].
  destruct Hps as [(e & es' & Ees & Hop & HlD1 & Hrec1 & Hln & Hle & HhH) Hps]. cbn [fst snd] in *.
  assert (Hvs : forall x, kin es x -> valid x).
  { intros x Hx. apply in_map_iff in Hx as (y & <- & Hy). apply Hv. apply in_or_app. now left. }
  destruct (align_ok (kin es) (fst e) G r lks gb0 fu Hvs (H - hh) D1 nodes
              (concat (map (@concat _) (D1 :: Ds)) ++ F) h f) as
    (h1 & f1 & nodes1 & X & E1 & Ho1 & HX & H1 & Hg1 & Hl1); [lia|exact Hop|exact H0|].
  destruct (ontop_back _ _ _ _ Ho1) as (X1 & l1 & np1 & Ep1 & Bp1).
  destruct (join_ok fu H G r lks gb0 HH sls ps Ds es (fst e) (X ++ D1) nodes1 l1 F h1 f1) as
    (h' & f' & rest & D & E3 & Ho' & HL' & Hr' & H' & Hg' & Hn' & Hlr); auto.
  { rewrite app_length. lia. }
  { rewrite last_app_ne by (eapply ontop_nonempty; eauto). exact Hrec1. }
  { eapply hinv0_perm; [|exact H1]. rewrite concat_app. cbn [map concat]. rewrite <- !app_assoc. reflexivity. }
  exists e, h', f', (nodes1 ++ rest), D. split; [now rewrite Ees|].
  split.
  { cbn [bk_join]. rewrite (mb_ok _ _ _ _ _ E1). rewrite mb_ret. rewrite (mb_lift _ _ _ _ Bp1).
    rewrite (mb_ok _ _ _ _ _ E3). reflexivity. }
  split; [exact Ho'|]. split; [exact HL'|]. split; [exact Hr'|]. split; [exact H'|].
  split; [eapply grows_trans; eauto|].
  pose proof (pstack_leaf_ne _ _ _ (ot_stack _ _ _ _ Ho1)). cbn [length]. rewrite !app_length in *. lia.
Qed.

(** ** The slices *)
Lemma slices_sum t q r todo i : r < t -> i + todo <= t ->
  fold_right (fun j acc => (q * t + r + j) / t + acc) 0 (seq i todo) =
  todo * q + ((i + todo - (t - r)) - (i - (t - r))).
Proof.
  intros Hr. revert i. induction todo as [|todo IH]; intros i Hi.
  - cbn. lia.
  - cbn [seq fold_right]. rewrite IH by lia.
    assert (E : (q * t + r + i) / t = q + (r + i) / t).
    { rewrite <- Nat.add_assoc. rewrite Nat.div_add_l by lia. reflexivity. }
    rewrite E. destruct (Nat.lt_ge_cases (r + i) t) as [Hc|Hc].
    + rewrite (Nat.div_small _ _ Hc). lia.
    + assert (E2 : (r + i) / t = 1).
      { symmetry. apply (Nat.div_unique (r + i) t 1 (r + i - t)); lia. }
      rewrite E2. lia.
Qed.

Lemma slices_total t n : 0 < t -> fold_right (fun j acc => (n + j) / t + acc) 0 (seq 0 t) = n.
Proof.
  intros Ht. pose proof (Nat.div_mod n t) as E. assert (Hm : n mod t < t) by (apply Nat.mod_upper_bound; lia).
  set (q := n / t) in *. set (r := n mod t) in *.
  transitivity (fold_right (fun j acc => (q * t + r + j) / t + acc) 0 (seq 0 t)).
  - replace n with (q * t + r) by lia. reflexivity.
  - rewrite slices_sum by lia. lia.
Qed.

Lemma slices_ok t total : forall todo i es, 0 < t ->
  fold_right (fun j acc => (total + j) / t + acc) 0 (seq i todo) = length es ->
  concat (bk_slices todo i t total es) = es /\ length (bk_slices todo i t total es) = todo /\
  (t <= total -> Forall (fun s => s <> [] /\ length s <= length es) (bk_slices todo i t total es)).
Proof.
  intros todo. induction todo as [|todo IH]; intros i es Ht Hsum; cbn [bk_slices seq fold_right] in *.
  - destruct es; [|discriminate]. split; [reflexivity|]. split; [reflexivity|]. intros _. constructor.
  - set (n := (total + i) / t) in *.
    destruct (IH (i + 1) (skipn n es) Ht) as (C1 & C2 & C3).
    { rewrite skipn_length. rewrite Nat.add_1_r. lia. }
    cbn [concat length]. rewrite C1, C2. split; [apply firstn_skipn|]. split; [reflexivity|].
    intros Htt. assert (Hn : 1 <= n).
    { unfold n. apply Nat.div_le_lower_bound; lia. }
    constructor.
    + rewrite firstn_length. split; [|lia].
      intros E. apply (f_equal (@length _)) in E. rewrite firstn_length in E. cbn in E. lia.
    + specialize (C3 Htt). rewrite Forall_forall in C3 |- *. intros s Hs. destruct (C3 s Hs) as [A B'].
      split; auto. rewrite skipn_length in B'. lia.
Qed.

(** ** From stacks of levels to trees *)
Lemma wf_neg inner k n : node_wf sl inner (Key k) n -> node_wf sl inner NegInf n.
Proof.
  intros [A1 A2 A3 A4 A5 A6 A7 A8]. split; auto.
  - unfold hi_ext. destruct (a_high n); exact Logic.I.
  - intros x Hx. destruct inner; [exact Logic.I|apply ele_neg].
  - discriminate.
  - discriminate.
Qed.

Lemma seg_neg inner k L hi nx : L <> [] -> seg sl inner (Key k) L hi nx -> seg sl inner NegInf L hi nx.
Proof.
  destruct L as [|[a n] L]; [congruence|]. intros _ (A & B' & C). split; [eapply wf_neg; eauto|auto].
Qed.

Lemma sents_lo lo lo' l : l <> [] -> sents lo' l = (lo', match sents lo l with [] => 0 | e :: _ => snd e end) :: tl (sents lo l).
Proof. destruct l; [congruence|reflexivity]. Qed.

Lemma kents_neg k L L' : (exists a n T, L = (a, n) :: T /\ a_slots n <> []) -> L' <> [] ->
  kents (Key k) L = entries (Key k) L' -> kents NegInf L = entries NegInf L'.
Proof.
  intros (a & n & T & -> & Hn) HL' E. destruct L' as [|[b m] L']; [congruence|]. cbn [kents entries] in *.
  destruct (a_slots n) as [|s0 ss]; [congruence|]. cbn [sents app] in *. injection E as E1 E2. now rewrite E1, E2.
Qed.

Lemma blvl_ne Q inner k L : blvl Q inner k L -> L <> [].
Proof. intros H. destruct (bl_head _ _ _ _ H) as (? & ? & ? & -> & _). discriminate. Qed.

Lemma blvl_slots Q inner k L : blvl Q inner k L -> exists a n T, L = (a, n) :: T /\ a_slots n <> [].
Proof.
  intros H. destruct (bl_head _ _ _ _ H) as (a & n & T & -> & _ & E). exists a, n, T. split; auto.
  intros E0. rewrite E0 in E. discriminate.
Qed.

Lemma pstack_tree Q k D : forall L U root, pstack Q k (L :: D) -> tower sl (entries NegInf L) U root ->
  exists leafs U', tree sl leafs U' root /\ leafs = last (L :: D) [] /\
    length U' = length D + length U /\
    Permutation (leafs ++ concat U') (concat (L :: D) ++ concat U).
Proof.
  induction D as [|L' D IH]; intros L U root HS HT.
  - cbn [pstack] in HS. exists L, U. split.
    + split; [|exact HT]. eapply seg_neg; [eapply blvl_ne; eauto|exact (bl_seg _ _ _ _ HS)].
    + split; [reflexivity|]. split; [reflexivity|]. cbn [concat]. rewrite app_nil_r. reflexivity.
  - cbn [pstack] in HS. destruct HS as (B1 & E & HS).
    assert (HL' : L' <> []).
    { destruct D; [|destruct HS as (HS & _)]; eapply blvl_ne; eauto. }
    destruct (IH L' (L :: U) root) as (leafs & U' & T & El & Hl & Hp); [exact HS| |].
    + cbn [tower]. split; [|split; [|exact HT]].
      * eapply seg_neg; [eapply blvl_ne; eauto|exact (bl_seg _ _ _ _ B1)].
      * eapply kents_neg; eauto. eapply blvl_slots; eauto.
    + exists leafs, U'. split; [exact T|]. split; [exact El|]. split; [cbn [length] in *; lia|].
      rewrite Hp. cbn [concat]. rewrite <- !app_assoc. rewrite (app_assoc (concat D) L).
      rewrite (app_assoc L' (concat D) (concat U)).
      rewrite (app_assoc (L ++ L') _ _) || idtac.
      etransitivity; [|apply Permutation_app_swap_app].
      rewrite <- !app_assoc. reflexivity.
Qed.

(** ** Bulkload *)

(** The entries do not fit in one leaf, so that the tree has an inner root. *)
Definition wide (es : list (K * pay)) (threads : nat) : Prop :=
  2 <= threads <= length es \/ exists k d e2 l2, bk_fill false es = Some (k, d, e2 :: l2).

Lemma pvs_inj l l' : pvs l = pvs l' -> l = l'.
Proof.
  revert l'. induction l as [|[k v] l IH]; intros [|[k' v'] l'] E; try discriminate; auto.
  cbn in E. injection E as -> -> E. f_equal. auto.
Qed.

Lemma hinv0_forget h f G F : hinv0 R h f G F -> hinv0 RB h f (map fst F ++ G) [].
Proof. intros [A1 A2 A3 A4]. split; auto. intros a n []. Qed.

Lemma hinv0_RB h f G F : hinv0 RB h f G F -> hinv0 R h f G F.
Proof.
  intros [A1 A2 A3 A4]. split; auto. intros a n Hn. destruct (A4 a n Hn) as (d & E & HR & _). eauto.
Qed.

Lemma bulkload_ok fu entries threads G Fold r lks gb0 h f :
  entries <> [] -> StronglySorted klt (map fst entries) ->
  (forall e, In e entries -> valid (fst e)) ->
  wide (pvs entries) threads -> length entries <= fu ->
  hinv0 R h f G Fold ->
  exists h' f' root leafs U,
    bulkload fu entries threads (St h r f lks gb0) = Ok tt (St h' root f' lks gb0) /\
    tree sl leafs U root /\ recs leafs = entries /\ length U <= 2 * length entries /\
    hinv0 R h' f' (map fst Fold ++ G) (leafs ++ concat U) /\ grows h f h' f'.
Proof.
  intros Hne Hs Hv Hw Hfu H0. apply hinv0_forget in H0. set (G' := map fst Fold ++ G) in *.
  set (es := pvs entries) in *.
  assert (Hes : map fst es = map fst entries) by (unfold es, pvs; rewrite map_map; reflexivity).
  assert (Hss : esorted es) by (unfold esorted; now rewrite Hes).
  assert (Hps : Forall (epay false) es).
  { unfold es, pvs. apply Forall_forall. intros x Hx. apply in_map_iff in Hx as (y & <- & _). reflexivity. }
  assert (Hvs : forall x, In x es -> valid (fst x)).
  { intros x Hx. apply in_map_iff in Hx as (y & <- & Hy). cbn. auto. }
  assert (Hlen : length es = length entries) by (unfold es, pvs; apply map_length).
  assert (Hkin : forall x, kin es x -> valid x).
  { intros x Hx. apply in_map_iff in Hx as (y & <- & Hy). auto. }
  assert (Hes0 : exists e es', es = e :: es').
  { unfold es, pvs. destruct entries; [congruence|]. cbn. eauto. }
  destruct Hes0 as (e & es' & Ees).
  (* the levels *)
  assert (HB : exists h1 f1 nodes D,
    (if (threads <=? 1) || (length es <? threads) then rr <- bk_single fu es ;; mret (snd rr)
     else ps <- bk_partials fu (bk_slices threads 0 threads (length es) es) 1 ;;
          bk_join fu (fst ps) None (snd ps)) (St h r f lks gb0) = Ok nodes (St h1 r f1 lks gb0) /\
    ontop (kin es) (fst e) D nodes /\ hinv0 RB h1 f1 G' (concat D) /\ grows h f h1 f1 /\
    pvs (recs (last D [])) = es /\ length D <= length es /\ length nodes <= length es /\
    2 <= length (last D [])).
  { destruct ((threads <=? 1) || (length es <? threads)) eqn:Et.
    - rewrite Ees in *.
      destruct (single_ok fu e es' G' r lks gb0 [] h f) as (h1 & f1 & nodes & D & E & Ho & H1 & Hg & Hr & Hl & Hw2); auto.
      { rewrite Hlen. exact Hfu. }
      exists h1, f1, nodes, D. rewrite (mb_ok _ _ _ _ _ E). split; [reflexivity|]. split; [exact Ho|].
      rewrite app_nil_r in H1. split; [exact H1|]. split; [exact Hg|]. split; [exact Hr|].
      destruct (ot_head _ _ _ _ Ho) as (a0 & ns & En).
      pose proof (ot_stack _ _ _ _ Ho) as HS. assert (1 <= length D) by (destruct D; [destruct HS|cbn; lia]).
      assert (1 <= length nodes) by (rewrite En; cbn; lia).
      split; [lia|]. split; [lia|].
      destruct Hw as [Hw|(k0 & d & e2 & l2 & Hw)]; [|eapply Hw2; eauto].
      apply orb_true_iff in Et as [Et|Et]; [apply Nat.leb_le in Et|apply Nat.ltb_lt in Et]; lia.
    - apply orb_false_iff in Et as [Et1 Et2]. apply Nat.leb_gt in Et1. apply Nat.ltb_ge in Et2.
      destruct (slices_ok threads (length es) threads 0 es) as (C1 & C2 & C3); [lia|apply slices_total; lia|].
      set (sls := bk_slices threads 0 threads (length es) es) in *.
      assert (Hsl : Forall (slice_ok (length es)) sls).
      { specialize (C3 Et2). rewrite Forall_forall in C3 |- *. intros x Hx.
        destruct (C3 x Hx) as [X1 X2]. apply in_split in Hx as (s1 & s2 & Esl).
        assert (Ex : es = concat s1 ++ x ++ concat s2) by (rewrite <- C1, Esl, concat_app; reflexivity).
        split; [exact X1|]. split; [lia|]. split.
        { unfold esorted in *. rewrite Ex, !map_app in Hss. apply SS_app in Hss as (_ & Hss & _).
          apply SS_app in Hss as (Hss & _). exact Hss. }
        split.
        { rewrite Ex in Hps. apply Forall_app in Hps as [_ Hps]. apply Forall_app in Hps as [Hps _]. exact Hps. }
        { intros y Hy. apply Hvs. rewrite Ex. apply in_or_app. right. apply in_or_app. now left. } }
      destruct (partials_ok fu (length es) G' r lks gb0 ltac:(lia) sls 1 [] h f Hsl) as (h1 & f1 & HH & ps & Ds & E1 & Hpa & HHl & H1 & Hg1).
      { rewrite Ees. cbn. lia. } { exact H0. }
      destruct sls as [|s0 sls']; [cbn in C2; lia|].
      cbn [concat] in C1.
      destruct (join_all fu HH G' r lks gb0 s0 sls' ps Ds [] h1 f1) as
        (e0 & h2 & f2 & nodes & D & He0 & E2 & Ho & HD & Hr & H2 & Hg2 & Hl1 & Hl2); try rewrite C1; auto; [lia|].
      rewrite C1 in *. rewrite app_nil_r in H2.
      assert (Ee0 : e0 = e).
      { destruct s0; [discriminate|]. cbn in He0. injection He0 as <-. rewrite Ees in C1. cbn in C1. congruence. }
      subst e0. exists h2, f2, nodes, D. rewrite (mb_ok _ _ _ _ _ E1). cbn [fst snd].
      split; [exact E2|]. split; [exact Ho|]. split; [exact H2|]. split; [eapply grows_trans; eauto|].
      split; [exact Hr|]. split; [lia|]. split; [lia|cbn [length] in *; lia]. }
  destruct HB as (h1 & f1 & nodes & D & E1 & Ho & H1 & Hg1 & Hr & HlD & Hln & H2l).
  destruct (index_ok (kin es) (fst e) 1 G' r lks gb0 Hkin (le_n 1) fu 0 D nodes (concat D) h1 f1) as
    (h2 & f2 & nodes2 & X & E2 & Ho2 & H2 & Hg2 & Hl2 & Hl2'); [lia|exact Ho|exact H1|].
  set (D2 := X ++ D) in *.
  destruct (ot_head _ _ _ _ Ho2) as (root & ns & En). assert (ns = []) as -> by (destruct ns; auto; rewrite En in Hl2; cbn in Hl2; lia).
  assert (H2' : hinv0 RB h2 f2 G' (concat D2)) by (unfold D2; rewrite concat_app; exact H2).
  assert (Hlast : last D2 [] = last D []) by (unfold D2; apply last_app_ne; eapply ontop_nonempty; eauto).
  pose proof (ot_stack _ _ _ _ Ho2) as HS. pose proof (ot_ents _ _ _ _ Ho2) as He.
  assert (HlD2 : length D2 <= 2 * length entries) by (unfold D2; rewrite app_length; lia).
  clearbody D2.
  destruct D2 as [|L D2]; [destruct HS|].
  cbn [hd] in He. rewrite En in He. destruct L as [|[root' n] [|[? ?] ?]]; cbn in He; try discriminate.
  injection He as He. subst root'.
  destruct D2 as [|L' D2]; [cbn in Hlast; rewrite <- Hlast in H2l; cbn in H2l; lia|].
  destruct HS as (B1 & Ek & HS). pose proof (bl_seg _ _ _ _ B1) as Hseg. destruct Hseg as (Hwf & Hnx & Hhi).
  cbn [seg] in Hhi. assert (Hhn : a_high n = None) by (unfold hi_ext in Hhi; destruct (a_high n); [discriminate|reflexivity]).
  set (n' := ANode (a_inner n) (a_removed n) (a_next n) None (a_high n) (a_slots n)).
  assert (Hn0 : a_slots n <> []).
  { destruct (blvl_slots _ _ _ _ B1) as (? & ? & ? & E & Hx). injection E as _ <- _. exact Hx. }
  destruct (pstack_tree (kin es) (fst e) D2 L' [[(root, n')]] root HS) as (leafs & U & HT & El & HlU & HP).
  { cbn [tower]. split; [|split; [|reflexivity]].
    - cbn [level seg]. split; [|split; [exact Hnx|exact Hhi]].
      apply wf_neg in Hwf. destruct Hwf as [A1 A2 A3 A4 A5 A6 A7 A8]. split; auto. discriminate.
    - apply (kents_neg (fst e) [(root, n')] L').
      + exists root, n', []. auto.
      + destruct D2; [|destruct HS as (HS & _)]; eapply blvl_ne; eauto.
      + exact Ek. }
  destruct (h0_rep _ _ _ _ _ H2' root n) as (d & Hd & HRd); [cbn; auto|].
  pose proof (nw_inner _ _ _ _ Hwf) as Hin.
  exists (upd h2 root (Some (bk_unlow d))), f2, root, leafs, U.
  split.
  { unfold bulkload. destruct entries as [|e1 es1]; [congruence|]. fold (pvs (e1 :: es1)). fold es.
    rewrite (mb_ok _ _ _ _ _ E1). rewrite (mb_ok _ _ _ _ _ E2). cbn [snd]. rewrite En.
    cbn [front]. unfold pay_addr. cbn [snd]. rewrite (mb_lift _ root _ _ eq_refl).
    rewrite mb_setroot. destruct fu as [|fu]; [cbn in Hfu; lia|]. cbn [bk_leftmost].
    rewrite (mb_getn _ _ _ _ _ _ _ _ Hd). destruct (BL_hdr d n (proj1 HRd)) as [-> _]. rewrite Hin.
    unfold setn. cbn [hp]. rewrite Hd. reflexivity. }
  split; [exact HT|].
  split.
  { apply pvs_inj. fold es. rewrite <- Hr, <- Hlast. rewrite El. reflexivity. }
  split; [cbn [length] in *; lia|].
  split.
  { apply hinv0_RB in H2'. cbn [concat app] in H2'.
    apply (hinv0_perm R _ _ _ ((root, n') :: concat (L' :: D2))).
    - rewrite HP. cbn [concat app]. symmetry. rewrite Permutation_app_comm. reflexivity.
    - apply (hinv0_set R h2 f2 G' [] root n n' (concat (L' :: D2)) (bk_unlow d) H2').
      apply BL_unlow; [exact (proj1 HRd)|exact Hin]. }
  { eapply grows_trans; [exact Hg1|]. eapply grows_trans; [exact Hg2|]. apply grows_set. congruence. }
Qed.

End BulkProofs.
