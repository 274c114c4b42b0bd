(** Destructor and statistics walk over exactly the nodes of the tree. *)
From Coq Require Import List Arith Bool Lia Sorted Permutation.
From Verif Require Import Params Mem Common Spec NodeAbs SLIface BaseIface TreeState Levels
  TreeHeap WalkModel.
Import ListNotations.

Section WalkProofs.
Context {P : Params} {O : OrdLaws P} {B : BaseOps P} {LB : BaseLaws P B} {W : Leak}.
Notation hinv := (@hinv P W bn brep).

(** ** The levels as a forest *)

Definition kids (n : anode) : list addr := map kid (a_slots n).
Definition all_inner (L : lvl) : Prop :=
  forall p, In p L -> a_inner (snd p) = true /\ a_slots (snd p) <> [] /\ forall s, In s (a_slots (snd p)) -> s_pay s = PP (kid s).
Definition all_leaf (L : lvl) : Prop := forall p, In p L -> a_inner (snd p) = false.

Fixpoint forest (L : lvl) (D : list lvl) : Prop :=
  match D with
  | [] => all_leaf L
  | M :: D' => all_inner L /\ flat_map (fun p => kids (snd p)) L = map fst M /\ forest M D'
  end.

Lemma seg_all sl inner lo L hi nx p : seg sl inner lo L hi nx -> In p L ->
  exists lo', node_wf sl inner lo' (snd p).
Proof.
  revert lo. induction L as [|[a n] L IH]; intros lo H Hp; [destruct Hp|].
  destruct H as (H1 & _ & H2). destruct Hp as [<-|Hp]; eauto.
Qed.

Lemma seg_all_leaf sl lo L hi nx : seg sl false lo L hi nx -> all_leaf L.
Proof. intros H p Hp. destruct (seg_all _ _ _ _ _ _ _ H Hp) as [lo' Hw]. apply (nw_inner _ _ _ _ Hw). Qed.

Lemma seg_all_inner sl lo L hi nx : seg sl true lo L hi nx -> all_inner L.
Proof.
  intros H p Hp. destruct (seg_all _ _ _ _ _ _ _ H Hp) as [lo' Hw].
  split; [apply (nw_inner _ _ _ _ Hw)|]. pose proof (nw_body _ _ _ _ Hw) as Hb. cbn in Hb.
  unfold inner_ok in Hb. destruct (a_slots (snd p)) as [|s0 tl0]; [tauto|].
  destruct Hb as ((_ & c & Hc) & Ht & _). split; [discriminate|]. intros s [<-|Hs].
  - unfold kid. now rewrite Hc.
  - rewrite Forall_forall in Ht. destruct (Ht s Hs) as (_ & k & c' & _ & Hc'). unfold kid. now rewrite Hc'.
Qed.

Lemma sents_snd lo l : map snd (sents lo l) = map kid l.
Proof. destruct l as [|s l]; cbn; auto. f_equal. rewrite map_map. reflexivity. Qed.

Lemma kents_snd lo L : map snd (kents lo L) = flat_map (fun p => kids (snd p)) L.
Proof.
  revert lo. induction L as [|[a n] L IH]; intros lo; cbn; auto.
  now rewrite map_app, sents_snd, IH.
Qed.

Lemma entries_snd lo L : map snd (entries lo L) = map fst L.
Proof. revert lo. induction L as [|[a n] L IH]; intros lo; cbn; auto. now rewrite IH. Qed.

Lemma forest_tower sl U : forall inner L0 D root, level sl inner L0 ->
  tower sl (entries NegInf L0) U root -> forest L0 D ->
  exists L D', L :: D' = rev U ++ L0 :: D /\ forest L D' /\ map fst L = [root].
Proof.
  induction U as [|L1 U IH]; intros inner L0 D root HL HT HF.
  - cbn in *. exists L0, D. split; auto. split; auto.
    rewrite <- (entries_snd NegInf), HT. reflexivity.
  - cbn [tower] in HT. destruct HT as (H1 & H2 & H3).
    destruct (IH true L1 (L0 :: D) root H1 H3) as (L & D' & E & HF' & Hr).
    + cbn [forest]. split; [eapply seg_all_inner; eauto|]. split; auto.
      rewrite <- (kents_snd NegInf), H2. apply entries_snd.
    + exists L, D'. split; auto. rewrite E. cbn [rev]. now rewrite <- app_assoc.
Qed.

Lemma forest_tree sl leafs U root : tree sl leafs U root ->
  exists L D, L :: D = rev U ++ [leafs] /\ forest L D /\ map fst L = [root].
Proof.
  intros [H1 H2]. eapply forest_tower; eauto. cbn. eapply seg_all_leaf; eauto.
Qed.

(** ** Rose trees *)

Inductive tr := Tr (p : addr * anode) (cs : list tr).
Definition ttop (t : tr) := match t with Tr p _ => p end.
Definition tkids (t : tr) := match t with Tr _ cs => cs end.
Definition taddr (t : tr) : addr := fst (ttop t).

Fixpoint tok (d : nat) (t : tr) : Prop :=
  match d with
  | 0 => a_inner (snd (ttop t)) = false /\ tkids t = []
  | S d' => a_inner (snd (ttop t)) = true /\
            map s_pay (a_slots (snd (ttop t))) = map (fun c => PP (taddr c)) (tkids t) /\
            tkids t <> [] /\ Forall (tok d') (tkids t)
  end.

Fixpoint tl_at (k : nat) (t : tr) : lvl :=
  match k with 0 => [ttop t] | S k' => flat_map (tl_at k') (tkids t) end.

Lemma flat_map_flat_map {A B' C} (f : B' -> list C) (g : A -> list B') l :
  flat_map f (flat_map g l) = flat_map (fun x => flat_map f (g x)) l.
Proof. induction l as [|x l IH]; cbn; auto. now rewrite flat_map_app, IH. Qed.

Lemma fm_cons {A C} (f : A -> list C) x l : flat_map f (x :: l) = f x ++ flat_map f l.
Proof. reflexivity. Qed.

Lemma flat_map_shift {A} (f g : nat -> list A) l : (forall k, f k = g (S k)) ->
  flat_map f l = flat_map g (map S l).
Proof. intros H. induction l as [|x l IH]; cbn; auto. now rewrite H, IH. Qed.

Lemma group (L : lvl) : forall ts', all_inner L -> flat_map (fun p => kids (snd p)) L = map taddr ts' ->
  exists ts, map ttop ts = L /\ flat_map tkids ts = ts' /\
    Forall (fun t => a_inner (snd (ttop t)) = true /\
              map s_pay (a_slots (snd (ttop t))) = map (fun c => PP (taddr c)) (tkids t) /\
              tkids t <> []) ts.
Proof.
  induction L as [|[a n] L IH]; intros ts' Hi E.
  - destruct ts'; [|discriminate]. exists []. auto.
  - cbn [flat_map snd] in E.
    assert (exists t1 t2, ts' = t1 ++ t2 /\ map taddr t1 = kids n /\
             flat_map (fun p => kids (snd p)) L = map taddr t2) as (t1 & t2 & -> & E1 & E2).
    { clear - E. revert ts' E. generalize (kids n) as kk. induction kk as [|x kk IHk]; intros ts' E.
      - exists [], ts'. auto.
      - destruct ts' as [|t ts']; [discriminate|]. cbn in E. inv E.
        destruct (IHk ts' H1) as (t1 & t2 & -> & E1 & E2). exists (t :: t1), t2. cbn. rewrite E1. auto. }
    destruct (IH t2) as (ts & H1 & H2 & H3); auto.
    { intros p Hp. apply Hi. now right. }
    exists (Tr (a, n) t1 :: ts). cbn. rewrite H1, H2. split; auto. split; auto. constructor; auto.
    cbn. destruct (Hi (a, n) (or_introl eq_refl)) as (Ha & Hne & Hb). cbn in *. split; auto.
    split; [|intros ->; unfold kids in E1; destruct (a_slots n); [auto|discriminate]].
    transitivity (map PP (kids n)).
    + unfold kids. rewrite map_map. apply map_ext_in. intros s Hs. auto.
    + rewrite <- E1, map_map. reflexivity.
Qed.

Lemma build D : forall L, forest L D -> exists ts, Forall (tok (length D)) ts /\
  map ttop ts = L /\ forall k, flat_map (tl_at k) ts = nth k (L :: D) [].
Proof.
  induction D as [|M D IH]; intros L H.
  - exists (map (fun p => Tr p []) L). cbn [length forest] in *. split; [|split].
    + apply Forall_forall. intros t Ht. apply in_map_iff in Ht as (p & <- & Hp). cbn. auto.
    + rewrite map_map. cbn. apply map_id.
    + intros [|k]; cbn.
      * induction L as [|p L IHL]; cbn; auto. rewrite IHL; auto. intros q Hq. apply H. now right.
      * rewrite flat_map_concat_map, map_map. cbn.
        replace (match k with 0 => [] | S _ => [] end : lvl) with (@nil (addr * anode)) by (destruct k; auto).
        induction L as [|p L IHL]; cbn; auto. apply IHL. intros q Hq. apply H. now right.
  - cbn [forest] in H. destruct H as (H1 & H2 & H3). destruct (IH M H3) as (ts' & A1 & A2 & A3).
    destruct (group L ts') as (ts & B1 & B2 & B3); auto.
    { rewrite H2, <- A2, map_map. reflexivity. }
    exists ts. cbn [length]. split; [|split]; auto.
    + apply Forall_forall. intros t Ht. rewrite Forall_forall in B3. destruct (B3 t Ht) as (C1 & C2 & C3).
      cbn. split; auto. split; auto. split; auto. apply Forall_forall. intros c Hc. rewrite Forall_forall in A1.
      apply A1. rewrite <- B2. apply in_flat_map. eauto.
    + intros [|k]; cbn [nth].
      * rewrite <- B1. clear. induction ts as [|t ts IHt]; cbn; [reflexivity|]. f_equal; auto.
      * cbn [tl_at]. rewrite <- flat_map_flat_map, B2. apply A3.
Qed.

Fixpoint taddrs (d : nat) (t : tr) : list addr :=
  taddr t :: match d with 0 => [] | S d' => flat_map (taddrs d') (tkids t) end.

Lemma taddrs_perm d : forall ts,
  Permutation (flat_map (taddrs d) ts)
    (flat_map (fun k => map fst (flat_map (tl_at k) ts)) (seq 0 (S d))).
Proof.
  induction d as [|d IH]; intros ts.
  - cbn. rewrite app_nil_r. induction ts as [|t ts IHt]; cbn; auto.
  - assert (E : Permutation (flat_map (taddrs (S d)) ts)
                  (map taddr ts ++ flat_map (taddrs d) (flat_map tkids ts))).
    { rewrite flat_map_flat_map. clear. induction ts as [|t ts IHt]; auto.
      cbn [flat_map map taddrs]. cbn [app]. constructor.
      rewrite IHt. rewrite !app_assoc. apply Permutation_app_tail. apply Permutation_app_comm. }
    rewrite E, IH. change (seq 0 (S (S d))) with (0 :: seq 1 (S d)). rewrite fm_cons. apply Permutation_app.
    + clear. replace (map fst (flat_map (tl_at 0) ts)) with (map taddr ts); auto.
      induction ts as [|t ts IHt]; cbn; [reflexivity|]. f_equal; auto.
    + rewrite <- (seq_shift (S d) 0). 
      rewrite (flat_map_shift (fun k => map fst (flat_map (tl_at k) (flat_map tkids ts)))
                 (fun k => map fst (flat_map (tl_at k) ts))); [apply Permutation_refl|]. intros k.
      cbn [tl_at]. now rewrite <- flat_map_flat_map.
Qed.

Lemma levels_flat (L : lvl) D : flat_map (fun k => map fst (nth k (L :: D) [])) (seq 0 (S (length D))) =
  map fst (concat (L :: D)).
Proof.
  revert L. induction D as [|M D IH]; intros L.
  - cbn. now rewrite !app_nil_r.
  - cbn [length]. change (seq 0 (S (S (length D)))) with (0 :: seq 1 (S (length D))).
    rewrite fm_cons. rewrite <- seq_shift.
    change (concat (L :: M :: D)) with (L ++ concat (M :: D)). rewrite map_app. cbn [nth]. f_equal.
    rewrite <- IH. symmetry. apply flat_map_shift. reflexivity.
Qed.

(** The heap holds the nodes of [t]. *)
Fixpoint tin (h : addr -> option bn) (d : nat) (t : tr) : Prop :=
  (exists n, h (taddr t) = Some n /\ brep n (snd (ttop t))) /\
  match d with 0 => True | S d' => Forall (tin h d') (tkids t) end.

Lemma tin_ext h h' d : forall t, tin h d t -> (forall x, In x (taddrs d t) -> h' x = h x) -> tin h' d t.
Proof.
  induction d as [|d IH]; intros t H E; cbn in *.
  - rewrite E; auto.
  - destruct H as [H1 H2]. rewrite E by auto. split; auto. rewrite Forall_forall in *. intros c Hc.
    apply IH; auto. intros x Hx. apply E. right. apply in_flat_map. eauto.
Qed.

Lemma tin_levels h d : forall t, tok d t ->
  (forall k p, k <= d -> In p (tl_at k t) -> exists n, h (fst p) = Some n /\ brep n (snd p)) -> tin h d t.
Proof.
  induction d as [|d IH]; intros t Ht H; cbn.
  - split; auto. apply (H 0); cbn; auto.
  - split; [apply (H 0); cbn; auto; lia|]. cbn in Ht. destruct Ht as (_ & _ & _ & Ht).
    rewrite Forall_forall in *. intros c Hc. apply IH; auto. intros k p Hk Hp. apply (H (S k)); [lia|].
    cbn. apply in_flat_map. eauto.
Qed.

(** ** Loops over the children *)

Lemma for_each_cs {A} (Inv : nat -> A -> st bn -> Prop) (body : nat -> A -> M bn A) n : forall i acc s,
  Inv i acc s ->
  (forall j acc s, i <= j < i + n -> Inv j acc s -> exists acc' s', body j acc s = Ok acc' s' /\ Inv (S j) acc' s') ->
  exists acc' s', for_each n i acc body s = Ok acc' s' /\ Inv (i + n) acc' s'.
Proof.
  induction n as [|n IH]; intros i acc s HI Hb; cbn [for_each].
  - exists acc, s. split; [reflexivity|]. now rewrite Nat.add_0_r.
  - destruct (Hb i acc s) as (acc1 & s1 & H1 & H2); [lia|auto|].
    destruct (IH (S i) acc1 s1 H2) as (acc2 & s2 & H3 & H4).
    { intros j a s0 Hj. apply Hb. lia. }
    exists acc2, s2. split; [|now rewrite <- Nat.add_succ_comm].
    unfold mbind. rewrite H1. exact H3.
Qed.

Lemma tok_child d t i : tok (S d) t -> i < length (tkids t) ->
  exists c, nth_error (tkids t) i = Some c /\ tok d c.
Proof.
  intros (_ & _ & _ & H) Hi. destruct (nth_error (tkids t) i) as [c|] eqn:E.
  - exists c. split; auto. rewrite Forall_forall in H. apply H. eapply nth_error_In; eauto.
  - apply nth_error_None in E. lia.
Qed.

Lemma tok_len d t : tok (S d) t -> length (a_slots (snd (ttop t))) = length (tkids t).
Proof. intros (_ & H & _). apply (f_equal (@length pay)) in H. now rewrite !map_length in H. Qed.

Lemma tok_child_read d t i c n : tok (S d) t -> nth_error (tkids t) i = Some c ->
  brep n (snd (ttop t)) -> bn_child n i = Some (taddr c).
Proof.
  intros (H1 & H2 & _) Hc Hr.
  assert (nth_error (map s_pay (a_slots (snd (ttop t)))) i = Some (PP (taddr c))) as E.
  { rewrite H2. exact (map_nth_error (fun c => PP (taddr c)) _ _ Hc). }
  destruct (nth_error (a_slots (snd (ttop t))) i) as [s|] eqn:Es.
  - rewrite (map_nth_error _ _ _ Es) in E. eapply B_child; eauto. congruence.
  - apply nth_error_None in Es. assert (nth_error (map s_pay (a_slots (snd (ttop t)))) i = None).
    { apply nth_error_None. rewrite map_length. auto. } congruence.
Qed.

Lemma NoDup_app_inv {A} (l1 l2 : list A) : NoDup (l1 ++ l2) ->
  NoDup l1 /\ NoDup l2 /\ forall x, In x l1 -> In x l2 -> False.
Proof.
  induction l1 as [|x l1 IH]; cbn; intros H.
  - repeat split; auto. constructor.
  - apply NoDup_cons_iff in H as [H1 H2]. destruct (IH H2) as (A1 & A2 & A3). rewrite in_app_iff in H1.
    repeat split; auto.
    + constructor; tauto.
    + intros y [<-|Hy]; eauto.
Qed.

Lemma firstn_S_nth {A} (l : list A) i x : nth_error l i = Some x -> firstn (S i) l = firstn i l ++ [x].
Proof.
  revert i. induction l as [|y l IH]; intros [|i] H; cbn in *; try discriminate.
  - now inv H.
  - f_equal. now apply IH.
Qed.

(** ** Deletion *)

Definition dead (l : list addr) (h h' : addr -> option bn) : Prop :=
  (forall x, In x l -> h' x = None) /\ (forall x, ~ In x l -> h' x = h x).

Lemma delete_ok d : forall t fu h r f l g, tok d t -> tin h d t -> NoDup (taddrs d t) -> d < fu ->
  exists h', delete_children fu (taddr t) (St h r f l g) = Ok tt (St h' r f l g) /\
    dead (taddrs d t) h h'.
Proof.
  induction d as [|d IH]; intros t fu h r f l g Ht Hin Hnd Hfu; (destruct fu as [|fu]; [lia|]);
    cbn [delete_children].
  - destruct Hin as [(n & Hn & Hr) _]. destruct (B_hdr _ _ Hr) as (E1 & _).
    unfold mbind, getn. cbn [hp]. rewrite Hn, E1. destruct Ht as [Ht _]. rewrite Ht.
    unfold mret, release. cbn [hp]. rewrite Hn. eexists. split; [reflexivity|]. cbn. split.
    + intros x [<-|[]]. apply upd_same.
    + intros x Hx. apply upd_diff. intros ->. apply Hx. now left.
  - destruct Hin as [(n & Hn & Hr) Hin]. destruct (B_hdr _ _ Hr) as (E1 & _ & _ & E4).
    unfold mbind at 1, getn at 1. cbn [hp]. rewrite Hn, E1. destruct (Ht) as (Ht1 & Ht2 & Htne & Ht3). rewrite Ht1.
    assert (Hlen : bn_rc n = length (tkids t)) by (rewrite E4; eapply tok_len; eauto).
    cbn [taddrs] in Hnd. apply NoDup_cons_iff in Hnd as [Hni Hnd].
    destruct (for_each_cs (fun i (_ : unit) s => exists h1, s = St h1 r f l g /\
                 dead (flat_map (taddrs d) (firstn i (tkids t))) h h1)
                (fun i _ => n' <- getn (taddr t) ;; c <- mlift (bn_child n' i) ;; delete_children fu c)
                (bn_rc n) 0 tt (St h r f l g)) as (u & s' & H1 & h1 & -> & H2).
    + exists h. split; auto. split; [intros x []|auto].
    + intros j acc s Hj (h1 & -> & Hd1 & Hd2). cbn [Nat.add] in Hj.
      destruct (tok_child d t j Ht) as (c & Hc & Hcok); [lia|].
      assert (Hn1 : h1 (taddr t) = Some n).
      { rewrite Hd2; auto. intros Hx. apply Hni. apply in_flat_map in Hx as (y & Hy & Hx).
        apply in_flat_map. exists y. split; auto. rewrite <- (firstn_skipn j). apply in_or_app. auto. }
      unfold mbind, getn. cbn [hp]. rewrite Hn1. rewrite (tok_child_read d t j c n Ht Hc Hr).
      assert (Hfull : flat_map (taddrs d) (tkids t) =
                flat_map (taddrs d) (firstn j (tkids t)) ++ taddrs d c ++ flat_map (taddrs d) (skipn (S j) (tkids t))).
      { rewrite (nth_error_split_eq _ _ _ Hc) at 1. rewrite flat_map_app. reflexivity. }
      rewrite Hfull in Hnd. apply NoDup_app_inv in Hnd as (A1 & A2 & A3).
      apply NoDup_app_inv in A2 as (A4 & A5 & A6).
      destruct (IH c fu h1 r f l g Hcok) as (h2 & H1 & H2 & H3); auto; [|lia|].
      * apply (tin_ext h).
        -- rewrite Forall_forall in Hin. apply Hin. eapply nth_error_In; eauto.
        -- intros x Hx. apply Hd2. intros Hy. apply (A3 x); auto. apply in_or_app. auto.
      * exists tt, (St h2 r f l g). split; [exact H1|]. exists h2. split; auto.
        rewrite (firstn_S_nth _ _ _ Hc), flat_map_app. cbn [flat_map]. rewrite app_nil_r. split.
        -- intros x Hx. destruct (in_dec Nat.eq_dec x (taddrs d c)) as [Hi|Hi]; auto.
           rewrite H3 by auto. apply in_app_or in Hx as [Hx|Hx]; [|tauto]. auto.
        -- intros x Hx. rewrite in_app_iff in Hx. rewrite H3 by tauto. apply Hd2. tauto.
    + unfold mbind at 1. rewrite H1. cbn [Nat.add] in H2.
      rewrite Hlen, firstn_all in H2. destruct H2 as [Hd1 Hd2]. unfold release. cbn [hp].
      rewrite Hd2, Hn by auto. eexists. split; [reflexivity|]. split.
      * intros x [<-|Hx]; [apply upd_same|]. unfold upd. destruct (x =? taddr t); auto.
      * intros x Hx. cbn in Hx. rewrite upd_diff by (intros ->; tauto). apply Hd2. tauto.
Qed.

(** ** Statistics *)

Definition use (h : addr -> option bn) (a : addr) : nat :=
  match h a with Some n => bn_usage n | None => 0 end.
Definition uses (h : addr -> option bn) (L : list addr) : nat := list_sum (map (use h) L).

Definition nths (i : nat) (sd : list stat) : stat := nth i sd (0, 0, 0).
Definition add3 (x y : stat) : stat :=
  match x, y with (a, b, c), (a', b', c') => (a + a', b + b', c + c') end.
Definition stat_of (h : addr -> option bn) (L : lvl) : stat :=
  (length L, uses h (map fst L), length L * page).

Lemma add3_assoc x y z : add3 (add3 x y) z = add3 x (add3 y z).
Proof. destruct x as [[]], y as [[]], z as [[]]. cbn. f_equal; [f_equal|]; lia. Qed.
Lemma add3_0 x : add3 x (0, 0, 0) = x.
Proof. destruct x as [[]]. cbn. now rewrite !Nat.add_0_r. Qed.

Lemma stat_of_app h L1 L2 : stat_of h (L1 ++ L2) = add3 (stat_of h L1) (stat_of h L2).
Proof.
  unfold stat_of, add3, uses. rewrite app_length, map_app, map_app, list_sum_app.
  f_equal. lia.
Qed.

Lemma stat_add_ok : forall sd lvl u, lvl < length sd -> exists sd', stat_add sd lvl u = Some sd' /\
  length sd' = length sd /\
  forall i, nths i sd' = if i =? lvl then add3 (nths i sd) (1, u, page) else nths i sd.
Proof.
  induction sd as [|[[c x] v] sd IH]; intros lvl u H; cbn in H; [lia|].
  destruct lvl as [|lvl]; cbn [stat_add].
  - eexists. split; [reflexivity|]. split; [reflexivity|]. intros [|i]; reflexivity.
  - destruct (IH lvl u) as (sd' & A & B' & C); [lia|]. rewrite A. eexists. split; [reflexivity|].
    split; [cbn; lia|]. intros [|i]; [reflexivity|]. cbn. apply C.
Qed.

Lemma stat_extend_ok sd lvl : lvl <= length sd -> lvl < length (stat_extend sd lvl) /\
  length (stat_extend sd lvl) = Nat.max (length sd) (S lvl) /\
  forall i, nths i (stat_extend sd lvl) = nths i sd.
Proof.
  intros H. unfold stat_extend. destruct (length sd <=? lvl) eqn:E.
  - apply Nat.leb_le in E. rewrite app_length. cbn. split; [lia|]. split; [lia|].
    intros i. unfold nths. destruct (Nat.lt_ge_cases i (length sd)).
    + now rewrite app_nth1.
    + rewrite app_nth2 by lia. rewrite (nth_overflow sd) by lia.
      destruct (i - length sd) as [|[|]]; reflexivity.
  - apply Nat.leb_gt in E. split; [lia|]. split; [lia|]. auto.
Qed.

Lemma holds_cons_ls l a x : holds ((a, LS) :: l) x LX = holds l x LX.
Proof. unfold holds. cbn. now rewrite andb_false_r. Qed.

Lemma tl_at_over d : forall t k, tok d t -> d < k -> tl_at k t = [].
Proof.
  induction d as [|d IH]; intros t k Ht Hk; (destruct k as [|k]; [lia|]); cbn.
  - destruct Ht as [_ ->]. reflexivity.
  - destruct Ht as (_ & _ & _ & Ht). rewrite Forall_forall in Ht.
    induction (tkids t) as [|c cs IHc]; cbn; auto. rewrite IH; cbn; auto; try lia.
    + apply IHc. intros x Hx. apply Ht. now right.
    + apply Ht. now left.
Qed.

Lemma collect_ok d : forall t fu lvl sd h r f l g, tok d t -> tin h d t -> d < fu ->
  (forall a, holds l a LX = false) -> lvl <= length sd ->
  exists sd', collect fu (taddr t) lvl sd (St h r f l g) = Ok sd' (St h r f l g) /\
    length sd' = Nat.max (length sd) (lvl + S d) /\
    forall i, nths i sd' = if lvl <=? i then add3 (nths i sd) (stat_of h (tl_at (i - lvl) t)) else nths i sd.
Proof.
  induction d as [|d IH]; intros t fu lvl sd h r f l g Ht Hin Hfu Hl Hlv; (destruct fu as [|fu]; [lia|]);
    cbn [collect]; destruct (stat_extend_ok sd lvl Hlv) as (X1 & X2 & X3);
    destruct Hin as [(n & Hn & Hr) Hin]; destruct (B_hdr _ _ Hr) as (E1 & _ & _ & E4);
    destruct (stat_add_ok _ lvl (bn_usage n) X1) as (sd1 & Y1 & Y2 & Y3).
  - unfold mbind, lock, may_lock, getn, unlock, mret. cbn [hp lk rt fr gb]. rewrite Hn, Hl. cbn [negb hp lk rt fr gb].
    rewrite Hn, Y1. cbn [mlift]. unfold mret. rewrite E1. destruct Ht as [-> Hk]. cbn [hp lk rt fr gb].
    rewrite Hn. cbn [holds existsb fst snd lmode_eqb unhold]. rewrite Nat.eqb_refl. cbn.
    eexists. split; [reflexivity|]. split; [lia|]. intros i. rewrite Y3, X3.
    destruct (Nat.eqb_spec i lvl).
    + subst. rewrite (proj2 (Nat.leb_le lvl lvl)) by lia. rewrite Nat.sub_diag. cbn [tl_at].
      f_equal. unfold stat_of, uses, use. cbn. unfold taddr in Hn. rewrite Hn. f_equal; [f_equal|]; lia.
    + destruct (lvl <=? i) eqn:E; auto. apply Nat.leb_le in E.
      replace (i - lvl) with (S (i - lvl - 1)) by lia. cbn [tl_at]. rewrite Hk. cbn. now rewrite add3_0.
  - unfold mbind at 1, lock, may_lock. cbn [hp lk rt fr gb]. rewrite Hn, Hl. cbn [negb].
    unfold mbind at 1, getn at 1. cbn [hp]. rewrite Hn.
    unfold mbind at 1. rewrite Y1. cbn [mlift]. unfold mret at 1. rewrite E1.
    destruct (Ht) as (Ht1 & Ht2 & Htne & Ht3). rewrite Ht1.
    assert (Hlen : bn_rc n = length (tkids t)) by (rewrite E4; eapply tok_len; eauto).
    destruct (for_each_cs (fun i sdx s => s = St h r f ((taddr t, LS) :: l) g /\
                 length sdx = Nat.max (length sd1) (if i =? 0 then 0 else S lvl + S d) /\
                 forall j, nths j sdx = if S lvl <=? j then add3 (nths j sd1) (stat_of h (flat_map (tl_at (j - S lvl)) (firstn i (tkids t))))
                                        else nths j sd1)
                (fun i sd0 => n' <- getn (taddr t) ;; c <- mlift (bn_child n' i) ;; collect fu c (S lvl) sd0)
                (bn_rc n) 0 sd1 (St h r f ((taddr t, LS) :: l) g)) as (sd2 & s' & H1 & -> & H2 & H3).
    + split; auto. split; [rewrite Nat.eqb_refl; lia|]. intros j. cbn [firstn flat_map]. unfold stat_of. cbn. rewrite add3_0.
      now destruct (S lvl <=? j).
    + intros j acc s Hj (-> & Z1 & Z2). cbn [Nat.add] in Hj.
      destruct (tok_child d t j Ht) as (c & Hc & Hcok); [lia|].
      unfold mbind, getn. cbn [hp]. rewrite Hn. rewrite (tok_child_read d t j c n Ht Hc Hr). cbn [mlift]. unfold mret at 1.
      destruct (IH c fu (S lvl) acc h r f ((taddr t, LS) :: l) g Hcok) as (sd3 & W1 & W2 & W3); auto; try lia.
      { rewrite Forall_forall in Hin. apply Hin. eapply nth_error_In; eauto. }
      { intros x. now rewrite holds_cons_ls. }
      exists sd3. eexists. split; [exact W1|]. split; auto. split.
      * rewrite W2, Z1. destruct (Nat.eqb_spec (S j) 0); [lia|]. destruct (j =? 0); lia.
      * intros i. rewrite W3, Z2. destruct (S lvl <=? i); auto.
        rewrite (firstn_S_nth _ _ _ Hc), flat_map_app. cbn [flat_map]. rewrite app_nil_r, stat_of_app, add3_assoc.
        reflexivity.
    + unfold mbind at 1. rewrite H1. cbn [Nat.add] in *.
      rewrite Hlen, firstn_all in H3.
      unfold mbind, unlock, mret. cbn [hp lk rt fr gb]. rewrite Hn.
      cbn [holds existsb fst snd lmode_eqb unhold]. rewrite Nat.eqb_refl. cbn [andb orb].
      exists sd2. split; [reflexivity|]. split.
      * rewrite H2, Y2, X2, Hlen. destruct (Nat.eqb_spec (length (tkids t)) 0); [|lia].
        exfalso. apply Htne. now apply length_zero_iff_nil.
      * intros i. rewrite H3, Y3, X3. destruct (Nat.eqb_spec i lvl).
        -- subst. rewrite (proj2 (Nat.leb_gt (S lvl) lvl)) by lia.
           rewrite (proj2 (Nat.leb_le lvl lvl)) by lia. rewrite Nat.sub_diag. cbn [tl_at].
           f_equal. unfold stat_of, uses, use. cbn. unfold taddr in Hn. rewrite Hn. f_equal; [f_equal|]; lia.
        -- destruct (S lvl <=? i) eqn:E.
           ++ apply Nat.leb_le in E. rewrite (proj2 (Nat.leb_le lvl i)) by lia.
              replace (i - lvl) with (S (i - S lvl)) by lia. reflexivity.
           ++ apply Nat.leb_gt in E. rewrite (proj2 (Nat.leb_gt lvl i)) by lia. reflexivity.
Qed.

(** ** Whole states *)

(** The state holds a well-formed tree. *)
Definition holds_tree (sl : bool) (s : st bn) (leafs : lvl) (U : list lvl) : Prop :=
  tree sl leafs U (rt s) /\ hinv (hp s) (fr s) (gb s) (leafs ++ concat U).

Lemma concat_rev_perm (U : list lvl) leafs : Permutation (concat (rev U ++ [leafs])) (leafs ++ concat U).
Proof.
  rewrite concat_app. cbn. rewrite app_nil_r.
  rewrite Permutation_app_comm. apply Permutation_app_head.
  induction U as [|L U IH]; cbn; auto. rewrite concat_app. cbn. rewrite app_nil_r, IH.
  apply Permutation_app_comm.
Qed.

(** The tree of a state as a rose tree. *)
Lemma tree_rose sl s leafs U : holds_tree sl s leafs U ->
  exists t, taddr t = rt s /\ tok (length U) t /\ tin (hp s) (length U) t /\
    Permutation (taddrs (length U) t) (map fst (leafs ++ concat U)) /\
    forall k, tl_at k t = nth k (rev U ++ [leafs]) [].
Proof.
  intros [HT HF]. destruct (forest_tree _ _ _ _ HT) as (L & D & E & HD & Hr).
  assert (Hlen : length D = length U).
  { apply (f_equal (@length lvl)) in E. rewrite app_length, rev_length in E. cbn in E. lia. }
  destruct (build D L HD) as (ts & A1 & A2 & A3).
  destruct L as [|[a n] [|]]; try discriminate. cbn in Hr. inv Hr.
  destruct ts as [|t [|]]; try discriminate. cbn in A2. inv A2.
  assert (A4 : forall k, tl_at k t = nth k (rev U ++ [leafs]) []).
  { intros k. rewrite <- E, <- A3. cbn. now rewrite app_nil_r. }
  exists t. inv A1. rewrite Hlen in *. split; [unfold taddr; now rewrite H0|]. split; auto.
  assert (Hperm : Permutation (taddrs (length U) t) (map fst (leafs ++ concat U))).
  { pose proof (taddrs_perm (length U) [t]) as Hp. cbn [flat_map] in Hp. rewrite app_nil_r in Hp.
    rewrite Hp. rewrite (flat_map_ext _ (fun k => map fst (nth k ([(rt s, n)] :: D) []))).
    2: { intros k. rewrite app_nil_r, A4, <- E. reflexivity. }
    rewrite <- Hlen, levels_flat, E. apply Permutation_map, concat_rev_perm. }
  split; [|split]; auto.
  apply tin_levels; auto. intros k [b m] Hk Hin. cbn. eapply hinv_get; [exact HF|].
  eapply Permutation_in; [apply concat_rev_perm|]. rewrite A4 in Hin. apply in_concat.
  exists (nth k (rev U ++ [leafs]) []). split; auto. apply nth_In. rewrite app_length, rev_length. cbn. lia.
Qed.

(** The destructor releases every page exactly once. *)
Lemma destroy_ok sl s leafs U fu : holds_tree sl s leafs U -> length U < fu ->
  exists s', destroy fu s = Ok tt s' /\ (forall a, hp s' a <> None <-> In a leaked) /\ gb s' = [].
Proof.
  intros H Hfu. destruct (tree_rose _ _ _ _ H) as (t & A1 & A2 & A3 & A4 & _).
  destruct H as [HT HF]. destruct s as [h r f l g]. cbn [rt hp fr gb] in *.
  pose proof (hi_nodup _ _ _ _ _ HF) as Hnd.
  assert (Hnd' : NoDup (taddrs (length U) t)).
  { eapply Permutation_NoDup; [symmetry; exact A4|]. apply NoDup_app_inv in Hnd. tauto. }
  destruct (delete_ok _ t fu h r f l g A2 A3 Hnd' Hfu) as (h' & B1 & B2 & B3).
  subst r. unfold destroy, mbind, getroot. cbn [rt]. rewrite B1.
  eexists. split; [reflexivity|]. cbn [free_garbage hp gb]. split; auto.
  assert (Hg : forall a, existsb (Nat.eqb a) g = true <-> In a g).
  { intros a. rewrite existsb_exists. split.
    - intros (x & Hx & E). apply Nat.eqb_eq in E. now subst.
    - intros Hx. exists a. split; auto. apply Nat.eqb_refl. }
  intros a. pose proof (hi_dom _ _ _ _ _ HF a) as Hdom. rewrite !in_app_iff in Hdom.
  apply NoDup_app_inv in Hnd as (Hn1 & Hn2 & Hn3). apply NoDup_app_inv in Hn2 as (Hn4 & Hn5 & Hn6).
  assert (Hta : In a (taddrs (length U) t) <-> In a (map fst (leafs ++ concat U))).
  { split; apply Permutation_in; [|symmetry]; exact A4. }
  destruct (existsb (Nat.eqb a) g) eqn:E.
  - apply Hg in E. split; [congruence|]. intros Hi. elim (Hn6 a E Hi).
  - assert (Hng : ~ In a g) by (intros Hi; apply Hg in Hi; congruence).
    destruct (in_dec Nat.eq_dec a (taddrs (length U) t)) as [Hi|Hi].
    + rewrite B2 by auto. split; [congruence|]. intros Hi'. elim (Hn3 a (proj1 Hta Hi)). apply in_or_app. auto.
    + rewrite B3 by auto. rewrite Hdom. tauto.
Qed.

(** Nodes at a given depth. *)
Lemma at_depth_levels sl s leafs U d a : holds_tree sl s leafs U ->
  at_depth s d a <-> In a (map fst (nth d (rev U ++ [leafs]) [])).
Proof.
  intros H. destruct (tree_rose _ _ _ _ H) as (t & A1 & A2 & A3 & A4 & A5).
  rewrite <- A5. clear A4 A5.
  assert (Hgen : forall D t k, taddr t = k -> tok D t -> tin (hp s) D t -> forall d0, at_depth s d0 k ->
            forall d x, In x (map fst (tl_at d t)) -> at_depth s (d0 + d) x).
  { clear. induction D as [|D IH]; intros t k <- Ht Hi d0 H0 d x Hx.
    - destruct d as [|d]; [|rewrite (tl_at_over 0 t (S d)) in Hx by (auto; lia); destruct Hx].
      cbn in Hx. destruct Hx as [<-|[]]. now rewrite Nat.add_0_r.
    - destruct d as [|d].
      + cbn in Hx. destruct Hx as [<-|[]]. now rewrite Nat.add_0_r.
      + cbn [tl_at] in Hx. apply in_map_iff in Hx as (p & <- & Hp). apply in_flat_map in Hp as (c & Hc & Hp).
        destruct Hi as [(n & Hn & Hr) Hi]. destruct (B_hdr _ _ Hr) as (E1 & _ & _ & E4).
        destruct (In_nth_error _ _ Hc) as [i Hci].
        rewrite <- Nat.add_succ_comm. destruct (tok_child D t i Ht) as (c' & Hc' & Hok).
        { apply nth_error_Some. congruence. }
        rewrite Hci in Hc'. inv Hc'.
        apply (IH c' (taddr c') eq_refl Hok).
        * rewrite Forall_forall in Hi. auto.
        * apply (ad_child s d0 (taddr t) n i (taddr c')); auto.
          -- rewrite E1. apply Ht.
          -- rewrite E4, (tok_len D t Ht). apply nth_error_Some. congruence.
          -- eapply tok_child_read; eauto.
        * apply in_map_iff. eauto. }
  split.
  - intros Hd. induction Hd as [|d a n i c Hd IH Hn Hin Hi Hc].
    + cbn. auto.
    + apply in_map_iff in IH as ([a' m] & Ha & Hp). cbn in Ha. subst a'.
      (* find the subtree *)
      assert (Hsub : forall D t, tok D t -> tin (hp s) D t -> forall d, In (a, m) (tl_at d t) ->
                 exists D' t', ttop t' = (a, m) /\ tok D' t' /\ tin (hp s) D' t' /\
                   forall k, incl (tl_at k t') (tl_at (d + k) t)).
      { clear. induction D as [|D IH]; intros t Ht Hi d Hp.
        - destruct d as [|d]; [|rewrite (tl_at_over 0 t (S d)) in Hp by (auto; lia); destruct Hp].
          cbn in Hp. destruct Hp as [Hp|[]]. exists 0, t. repeat split; try apply Ht; try apply Hi; auto.
          intros k x. auto.
        - destruct d as [|d].
          + cbn in Hp. destruct Hp as [Hp|[]]. exists (S D), t. repeat split; try apply Ht; try apply Hi; auto.
            intros k x. auto.
          + cbn [tl_at] in Hp. apply in_flat_map in Hp as (c & Hc & Hp).
            destruct Ht as (_ & _ & _ & Ht). destruct Hi as [_ Hi]. rewrite Forall_forall in Ht, Hi.
            destruct (IH c (Ht c Hc) (Hi c Hc) d Hp) as (D' & t' & X1 & X2 & X3 & X4).
            exists D', t'. repeat split; auto. intros k x Hx. cbn. apply in_flat_map. exists c. split; auto.
            apply X4. auto. }
      destruct (Hsub _ t A2 A3 d Hp) as (D' & t' & X1 & X2 & X3 & X4). clear Hsub.
      destruct D' as [|D'].
      { destruct X3 as [(n' & Hn' & Hr') _]. unfold taddr in Hn'. rewrite X1 in *. cbn in *.
        destruct X2 as [X2 _]. rewrite X1 in X2. cbn in X2. destruct (B_hdr _ _ Hr') as (E1 & _).
        rewrite Hn in Hn'. inv Hn'. congruence. }
      destruct (X3) as [(n' & Hn' & Hr') _]. unfold taddr in Hn'. rewrite X1 in Hn', Hr'. cbn [fst snd] in *.
      rewrite Hn in Hn'. inv Hn'. destruct (B_hdr _ _ Hr') as (E1 & _ & _ & E4).
      destruct (tok_child D' t' i X2) as (c' & Hc' & Hok).
      { rewrite <- (tok_len D' t' X2), X1. cbn [snd]. rewrite <- E4. auto. }
      assert (Hcc : bn_child n' i = Some (taddr c')).
      { eapply tok_child_read; eauto. now rewrite X1. }
      rewrite Hc in Hcc. inv Hcc.
      apply in_map_iff. exists (ttop c'). split; [reflexivity|]. specialize (X4 1). rewrite Nat.add_1_r in X4. apply X4. cbn.
      apply in_flat_map. exists c'. split; [eapply nth_error_In; eauto | cbn; auto].
  - intros Hx. apply (Hgen _ t (rt s) A1 A2 A3 0 (ad_root s) d a Hx).
Qed.

Lemma levels_nodup sl s leafs U d : holds_tree sl s leafs U ->
  NoDup (map fst (nth d (rev U ++ [leafs]) [])).
Proof.
  intros [HT HF]. pose proof (hi_nodup _ _ _ _ _ HF) as Hnd. apply NoDup_app_inv in Hnd as (Hnd & _ & _).
  apply (Permutation_NoDup (l' := map fst (concat (rev U ++ [leafs])))) in Hnd.
  2: { apply Permutation_map. symmetry. apply concat_rev_perm. }
  revert d Hnd. induction (rev U ++ [leafs]) as [|L Ls IH]; intros d Hnd.
  - destruct d; constructor.
  - cbn [concat] in Hnd. rewrite map_app in Hnd. apply NoDup_app_inv in Hnd as (N1 & N2 & _).
    destruct d as [|d]; cbn; auto.
Qed.

Lemma uses_le h L : (forall a, In a L -> use h a <= page) -> uses h L <= length L * page.
Proof.
  induction L as [|a L IH]; intros H; [cbn; auto|].
  change (uses h (a :: L)) with (use h a + uses h L). cbn [length Nat.mul].
  assert (use h a <= page) by (apply H; now left).
  assert (uses h L <= length L * page) by (apply IH; intros; apply H; now right). lia.
Qed.

(** The statistics. *)
Lemma statistics_ok sl s leafs U fu : holds_tree sl s leafs U -> length U < fu ->
  (forall a, holds (lk s) a LX = false) ->
  exists sd, statistics fu s = Ok sd s /\ length sd = S (length U) /\
    forall k c u v, nth_error sd k = Some (c, u, v) ->
      exists l, NoDup l /\ (forall a, In a l <-> at_depth s k a) /\ c = length l /\
        v = c * page /\ u = uses (hp s) l /\ u <= v.
Proof.
  intros H Hfu Hl. destruct (tree_rose _ _ _ _ H) as (t & A1 & A2 & A3 & A4 & A5).
  destruct s as [h r f l g]. cbn [rt hp fr gb lk] in *.
  destruct (collect_ok _ t fu 0 [] h r f l g A2 A3 Hfu Hl) as (sd & B1 & B2 & B3); [cbn; lia|].
  exists sd. subst r. unfold statistics, mbind, getroot. cbn [rt]. split; auto.
  cbn [length Nat.add] in B2. rewrite Nat.max_0_l in B2. split; auto.
  intros k c u v Hk. specialize (B3 k). cbn [Nat.leb] in B3. rewrite Nat.sub_0_r in B3.
  unfold nths in B3 at 1. rewrite (nth_error_nth _ _ _ Hk) in B3.
  replace (nths k []) with (0, 0, 0) in B3 by (unfold nths; destruct k; reflexivity).
  unfold stat_of, add3 in B3. cbn [Nat.add] in B3. rewrite A5 in B3. inv B3.
  exists (map fst (nth k (rev U ++ [leafs]) [])). split; [eapply levels_nodup; eauto|].
  split; [intros a; symmetry; eapply at_depth_levels; eauto|].
  rewrite map_length. repeat (split; [reflexivity|]).
  rewrite <- (map_length fst). apply uses_le. intros a Ha. unfold use.
  destruct (h a) as [n|] eqn:En; [|lia]. destruct H as [HT HF]. cbn in HF.
  apply in_map_iff in Ha as ([a' m] & <- & Hin).
  destruct (hinv_get _ _ _ _ _ a' m HF) as (n' & Hn' & Hr).
  - destruct (Nat.lt_ge_cases k (length (rev U ++ [leafs]))) as [Hk'|Hk'].
    + eapply Permutation_in; [apply concat_rev_perm|]. apply in_concat. eexists. split; [|exact Hin].
      apply nth_In. auto.
    + rewrite nth_overflow in Hin by auto. destruct Hin.
  - cbn in En. rewrite En in Hn'. inv Hn'. eapply B_usage; eauto.
Qed.

(** All leaves are on the last level, all nodes above are inner nodes. *)
Lemma depth_leaf sl s leafs U d a : holds_tree sl s leafs U -> at_depth s d a ->
  (is_leaf s a <-> d = length U) /\ d <= length U /\ exists n, hp s a = Some n.
Proof.
  intros H Hd. apply (at_depth_levels sl s leafs U) in Hd; auto.
  destruct (Nat.lt_ge_cases d (length (rev U ++ [leafs]))) as [Hlt|Hge].
  2: { rewrite nth_overflow in Hd by auto. destruct Hd. }
  rewrite app_length, rev_length in Hlt. cbn in Hlt.
  apply in_map_iff in Hd as ([a' m] & <- & Hin). cbn [fst].
  destruct H as [HT HF].
  assert (HF' : In (a', m) (leafs ++ concat U)).
  { eapply Permutation_in; [apply concat_rev_perm|]. apply in_concat. eexists. split; [|exact Hin].
    apply nth_In. rewrite app_length, rev_length. cbn. lia. }
  destruct (hinv_get _ _ _ _ _ a' m HF HF') as (n & Hn & Hr). destruct (B_hdr _ _ Hr) as (E1 & _).
  assert (Hi : a_inner m = false <-> d = length U).
  { destruct (Nat.eq_dec d (length U)) as [->|Hne].
    - rewrite app_nth2 in Hin by (rewrite rev_length; lia). rewrite rev_length, Nat.sub_diag in Hin. cbn in Hin.
      destruct HT as [HL _]. apply seg_all_leaf in HL. specialize (HL _ Hin). cbn in HL. tauto.
    - rewrite app_nth1 in Hin by (rewrite rev_length; lia).
      assert (HU : In (nth d (rev U) []) U).
      { apply in_rev. apply nth_In. rewrite rev_length. lia. }
      destruct HT as [_ HT]. clear - HT HU Hin Hne.
      assert (Hall : forall U E root L, tower sl E U root -> In L U -> level sl true L).
      { clear. induction U as [|L0 U IH]; intros E root L HT Hin; [destruct Hin|]. cbn in HT.
        destruct HT as (H1 & _ & H2). destruct Hin as [<-|Hin]; eauto. }
      specialize (Hall _ _ _ _ HT HU). apply seg_all_inner in Hall. destruct (Hall _ Hin) as [Hi _].
      cbn in Hi. split; intros; congruence. }
  split; [|split]; eauto; [|lia].
  unfold is_leaf. split.
  - intros (n' & Hn' & Hl). rewrite Hn in Hn'. inv Hn'. apply Hi. congruence.
  - intros Hd. exists n. split; auto. rewrite E1. now apply Hi.
Qed.

(** The chain of leaves. *)
Lemma seg_chain sl lo L hi s a n : seg sl false lo ((a, n) :: L) hi None ->
  (forall b m, In (b, m) ((a, n) :: L) -> exists d, hp s b = Some d /\ brep d m) ->
  chain s a (map fst ((a, n) :: L)).
Proof.
  revert lo a n. induction L as [|[b m] L IH]; intros lo a n H Hr.
  - destruct H as (_ & H & _). destruct (Hr a n) as (d & Hd & Hrep); [now left|].
    destruct (B_hdr _ _ Hrep) as (_ & _ & E & _). cbn. apply (ch_last s a d); auto.
    rewrite E. apply H. auto.
  - destruct H as (_ & H & HS). destruct (Hr a n) as (d & Hd & Hrep); [now left|].
    destruct (B_hdr _ _ Hrep) as (_ & _ & E & _).
    change (map fst ((a, n) :: (b, m) :: L)) with (a :: map fst ((b, m) :: L)).
    apply (ch_cons s a d b); auto.
    + rewrite E. rewrite H by auto. reflexivity.
    + eapply IH; eauto. intros c x Hc. apply Hr. now right.
Qed.

Lemma leftmost_ok D : forall t s, tok D t -> tin (hp s) D t ->
  exists p, hd_error (tl_at D t) = Some p /\ leftmost_path s (taddr t) (fst p).
Proof.
  induction D as [|D IH]; intros t s Ht Hi.
  - exists (ttop t). split; auto. destruct Hi as [(n & Hn & Hr) _]. destruct (B_hdr _ _ Hr) as (E1 & _).
    apply lp_leaf. exists n. split; auto. rewrite E1. apply Ht.
  - destruct Hi as [(n & Hn & Hr) Hi]. destruct (B_hdr _ _ Hr) as (E1 & _).
    destruct (Ht) as (H1 & H2 & H3 & H4). destruct (tkids t) as [|c cs] eqn:Ek; [congruence|].
    inv H4. inv Hi. destruct (IH c s) as (p & Hp & Hl); auto.
    exists p. split.
    + cbn [tl_at]. rewrite Ek. cbn [flat_map]. destruct (tl_at D c); [discriminate|]. exact Hp.
    + apply (lp_inner s (taddr t) n (taddr c)); auto; [congruence|].
      eapply tok_child_read; eauto. now rewrite Ek.
Qed.

Lemma chain_ok sl s leafs U : holds_tree sl s leafs U ->
  exists a, leftmost_path s (rt s) a /\ chain s a (map fst leafs).
Proof.
  intros H. destruct (tree_rose _ _ _ _ H) as (t & A1 & A2 & A3 & A4 & A5).
  destruct (leftmost_ok _ t s A2 A3) as (p & Hp & Hl). rewrite A1 in Hl.
  rewrite A5, app_nth2 in Hp by (rewrite rev_length; lia). rewrite rev_length, Nat.sub_diag in Hp. cbn in Hp.
  destruct leafs as [|[a n] L]; [discriminate|]. inv Hp. exists a. split; auto.
  destruct H as [[HL _] HF]. eapply seg_chain; [exact HL|].
  intros b m Hb. eapply hinv_get; [exact HF|]. apply in_or_app. now left.
Qed.

End WalkProofs.
