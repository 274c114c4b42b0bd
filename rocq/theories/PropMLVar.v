(** Properties of BTreePML ([oml = false]) and BTreeOML ([oml = true]) with the
    variable-length node layout, used by one thread.

    [ml_run oml fuel es ml_init] (MLModel.v) executes the model of the C++ code on the
    events [es] (calls, and garbage collections at arbitrary points) from a fresh tree.
    [Ok results state] is the only good outcome: [Undef] stands for undefined behaviour
    (reading outside the stored bytes, null or dangling pointers, unlocking what is not
    held), [Blocked] for waiting on a latch the caller itself holds, [NoFuel] for a loop
    that did not finish.  The specification is Spec.v alone.

    Keys are non-empty and at most [maxkey] (kMaxKeyLen) bytes long ([ok_key]); the page
    configuration satisfies [VarGood] and [VarMLGood], which the default 1 KiB page with 128-byte keys does
    not (see PropLimits.v for what happens there). *)
From Coq Require Import List Arith Bool Lia Sorted.
From Verif Require Import Params Mem Common Spec NodeAbs FixProofs VarModel VarProofs SLIface BaseIface
  MLIface VarSL VarML TreeState SLModel WalkModel WalkProofs IterModel MLModel MLScanModel MLProofs MLApi Inst.
Import ListNotations.

Section Props.
Context (P : Params) (O : OrdLaws P) (F : VarSizes P) (G : VarGood P) (GM : VarMLGood P) (oml : bool).
#[local] Instance ops : MLOps P := var_ml_ops.
#[local] Instance laws : MLLaws P ops := var_ml_laws.
#[local] Instance wops : BaseOps P := base_of_ml ops.

Definition ok_key (k : K) : Prop := 0 < klen k <= maxkey.
Definition ok_keys (es : list event) : Prop := forall c, In c (calls_of es) -> ok_key (call_key c).
Definition ok_bound (b : bound) : Prop := forall k c, b = Some (k, c) -> ok_key k.

Lemma valid_key k : ok_key k -> mvalid k.
Proof. intros H. exact H. Qed.
Lemma valid_keys es : ok_keys es -> mkeys_valid es.
Proof. intros H c Hc. apply valid_key, H, Hc. Qed.
Lemma valid_bound b : ok_bound b -> mbound_valid b.
Proof. intros H k c Hc. eapply valid_key, H, Hc. Qed.

(** C04.  Every finite session terminates without undefined behaviour and returns what
    the plain map returns; the number of loop iterations needed is bounded by the
    session's length. *)
Theorem C04_multi_layer_varlen_is_a_map : forall (es : list event) fuel,
  ok_keys es -> length es + 3 <= fuel ->
  exists s, ml_run oml fuel es ml_init = Ok (snd (spec_run amap_empty (calls_of es))) s.
Proof. intros es fu Hv Hf. destruct (mapi_run oml es fu (valid_keys _ Hv) Hf) as (s & A & _). eauto. Qed.

(** C05.  A scan after any session delivers exactly the records in range, ascending;
    [limit] is how often the caller advances the iterator. *)
Theorem C05_scan_exact_multi_layer_varlen : forall es fuel rs s lo hi,
  ok_keys es -> ok_bound lo -> ok_bound hi -> length es + 3 <= fuel -> ml_run oml fuel es ml_init = Ok rs s ->
  exists l F, is_scan (fst (spec_run amap_empty (calls_of es))) lo hi l /\
    forall fuel' limit, F <= fuel' -> ml_scan oml fuel' lo hi limit s = Ok (firstn limit l) s.
Proof.
  intros es fu rs s lo hi Hv Hlo Hhi Hf Hr. destruct (mapi_reached oml _ _ _ _ (valid_keys _ Hv) Hf Hr) as [_ Hi].
  eapply ml_scan_ok; eauto using valid_bound.
Qed.

(** C06.  The bounds: nothing outside the range is returned, open bounds exclude,
    closed bounds include a stored key. *)
Theorem C06_scan_bounds_multi_layer_varlen : forall es fuel rs s lo hi,
  ok_keys es -> ok_bound lo -> ok_bound hi -> length es + 3 <= fuel -> ml_run oml fuel es ml_init = Ok rs s ->
  exists F, forall fuel' limit, F <= fuel' -> exists l,
    ml_scan oml fuel' lo hi limit s = Ok l s /\
    (forall b c k v, lo = Some (b, c) -> In (k, v) l -> kle b k /\ (c = false -> k <> b)) /\
    (forall b c k v, hi = Some (b, c) -> In (k, v) l -> kle k b /\ (c = false -> k <> b)) /\
    (length l < limit -> forall b v, ok_key b -> ml_call oml fuel (CRead b) s = Ok (RPayload (Some v)) s ->
       (lo = Some (b, true) -> below hi b -> In (b, v) l) /\
       (hi = Some (b, true) -> above lo b -> In (b, v) l)).
Proof.
  intros es fu rs s lo hi Hv Hlo Hhi Hf Hr. destruct (mapi_reached oml _ _ _ _ (valid_keys _ Hv) Hf Hr) as [_ Hi].
  destruct (ml_scan_ok oml _ _ _ lo hi Hi) as (l & F' & [Hs Hl] & Hrun); [now apply valid_bound..|].
  exists F'. intros fu' limit Hfu'. exists (firstn limit l). split; [auto|].
  assert (Hin : forall x, In x (firstn limit l) -> In x l) by (intros x Hx; rewrite <- (firstn_skipn limit l); apply in_or_app; auto).
  split; [|split].
  - intros b c k v -> H. apply Hin, Hl in H as (_ & H & _). cbn in H. destruct c.
    + split; [exact H|discriminate].
    + split; [now apply klt_kle|]. intros _ ->. exact (klt_irrefl _ H).
  - intros b c k v -> H. apply Hin, Hl in H as (_ & _ & H). cbn in H. destruct c.
    + split; [exact H|discriminate].
    + split; [now apply klt_kle|]. intros _ ->. exact (klt_irrefl _ H).
  - intros Hlen b v Hvb Hb. rewrite firstn_length in Hlen. rewrite firstn_all2 by lia.
    rewrite (ml_read_ok _ _ _ _ _ _ Hi (valid_key _ Hvb)) in Hb by lia. inv Hb.
    split; intros -> H; apply Hl; cbn; auto using kle_refl.
Qed.

(** C07.  Return codes, stated only through what Read reports before and after. *)
Theorem C07_return_codes_multi_layer_varlen : forall es fuel rs s k v,
  ok_keys es -> ok_key k -> length es + 4 <= fuel -> ml_run oml fuel es ml_init = Ok rs s ->
  exists m, (forall k', ok_key k' -> ml_call oml fuel (CRead k') s = Ok (RPayload (m k')) s) /\
  let same s' := forall k', ok_key k' -> ml_call oml fuel (CRead k') s' = Ok (RPayload (m k')) s' in
  let only o s' := forall k', ok_key k' -> ml_call oml fuel (CRead k') s' =
                     Ok (RPayload (if keqb k' k then o else m k')) s' in
  (exists s', ml_call oml fuel (CWrite k v) s = Ok RSuccess s' /\ only (Some v) s') /\
  (m k = None -> exists s', ml_call oml fuel (CInsert k v) s = Ok RSuccess s' /\ only (Some v) s') /\
  (m k <> None -> exists s', ml_call oml fuel (CInsert k v) s = Ok RKeyExist s' /\ same s') /\
  (m k <> None -> exists s', ml_call oml fuel (CUpdate k v) s = Ok RSuccess s' /\ only (Some v) s') /\
  (m k = None -> exists s', ml_call oml fuel (CUpdate k v) s = Ok RKeyNotExist s' /\ same s') /\
  (m k <> None -> exists s', ml_call oml fuel (CDelete k) s = Ok RSuccess s' /\ only None s') /\
  (m k = None -> exists s', ml_call oml fuel (CDelete k) s = Ok RKeyNotExist s' /\ same s').
Proof.
  intros es fu rs s k v Hv Hkey Hf Hr.
  destruct (mapi_reached oml _ _ _ _ (valid_keys _ Hv) (ltac:(lia) : length es + 3 <= fu) Hr) as [_ Hi].
  set (m := fst (spec_run amap_empty (calls_of es))) in *. exists m.
  assert (Hst : forall c, ok_key (call_key c) -> exists s', ml_call oml fu c s = Ok (snd (spec_step m c)) s' /\
      forall k', ok_key k' -> ml_call oml fu (CRead k') s' = Ok (RPayload (fst (spec_step m c) k')) s').
  { intros c Hc. destruct (mapi_step oml _ _ _ c fu Hi (valid_key _ Hc)) as (s' & A & _ & B); [lia|].
    exists s'. split; [exact A|]. intros k' Hk'. apply B; [exact (valid_key _ Hk')|lia]. }
  split; [intros k' Hk'; eapply ml_read_ok; [exact Hi|exact (valid_key _ Hk')|lia]|].
  cbv zeta. repeat split; intros;
    match goal with |- exists s', ml_call _ _ ?c _ = _ /\ _ => destruct (Hst c Hkey) as (s' & A & B) end;
    exists s'; cbn [spec_step fst snd] in A, B; unfold amap_set in B;
    try (destruct (m k) eqn:E; try congruence); cbn [fst snd] in A, B; auto.
Qed.

(** C08.  In each page of a reachable tree the metadata array, the records, and the two
    border keys lie in the page without overlap.  [chunks n] lists (offset, length) of the
    border keys present and of all records according to the stored metadata. *)
Definition chunks (n : vnode) : list (nat * nat) :=
  (if vn_llen n =? 0 then [] else [(vn_loff n, vn_llen n)]) ++
  (if vn_hlen n =? 0 then [] else [(vn_hoff n, vn_hlen n)]) ++
  flat_map (fun i => match vx_meta (vn_mem n) i with
                     | Some mt => [(md_off mt, md_rlen mt)] | None => [] end)
           (seq 0 (vn_rc n)).

Theorem C08_pages_fit_multi_layer_varlen : forall es fuel rs s d a n,
  ok_keys es -> length es + 3 <= fuel -> ml_run oml fuel es ml_init = Ok rs s ->
  at_depth s d a -> hp s a = Some n ->
  (forall i, i < vn_rc n -> vx_meta (vn_mem n) i <> None) /\
  (forall c, In c (chunks n) -> hdr + metalen * vn_rc n <= fst c /\ fst c + snd c <= page) /\
  ForallOrdPairs (fun c d => fst c + snd c <= fst d \/ fst d + snd d <= fst c) (chunks n).
Proof.
  intros es fu rs s d a n Hv Hf Hr Hd Hn. destruct (mapi_reached oml _ _ _ _ (valid_keys _ Hv) Hf Hr) as [_ Hi].
  destruct (mapi_rep oml _ _ _ _ _ _ Hi Hd Hn) as (x & L & dead & Hx).
  assert (Hm : forall i, i < vn_rc n -> exists s off, nth_error L i = Some (s, off) /\
            vx_meta (vn_mem n) i = Some (vmt s off)).
  { intros i Hlt. rewrite (v_rc _ _ _ _ Hx) in Hlt. destruct (nth_error_ex _ _ Hlt) as [[s0 off] E].
    exists s0, off. split; auto. eapply v_meta; eauto. }
  assert (E : chunks n = ochunk (a_low x) (vn_loff n) ++ ochunk (a_high x) (vn_hoff n) ++ map rchunk L).
  { unfold chunks. f_equal; [|f_equal].
    - rewrite (v_llen _ _ _ _ Hx). destruct (a_low x) as [k|] eqn:Ek; cbn [klen_o ochunk]; [|reflexivity].
      destruct (v_lowv _ _ _ _ Hx k Ek). destruct (klen k) eqn:E0; [lia|]. reflexivity.
    - rewrite (v_hlen _ _ _ _ Hx). destruct (a_high x) as [k|] eqn:Ek; cbn [klen_o ochunk]; [|reflexivity].
      destruct (v_highv _ _ _ _ Hx k Ek). destruct (klen k) eqn:E0; [lia|]. reflexivity.
    - rewrite <- (skipn_O L) at 1. pose proof (v_rc _ _ _ _ Hx) as Hrc.
      assert (Hg : forall m j, j + m = length L ->
        flat_map (fun i => match vx_meta (vn_mem n) i with
                     | Some mt => [(md_off mt, md_rlen mt)] | None => [] end) (seq j m) = map rchunk (skipn j L)).
      { induction m as [|m IH]; intros j Hj.
        - rewrite skipn_all2 by lia. reflexivity.
        - cbn [seq flat_map]. destruct (Hm j) as (s0 & off & E1 & E2); [lia|]. rewrite E2, (IH (S j)) by lia.
          
          assert (Es : skipn j L = (s0, off) :: skipn (S j) L).
          { clear -E1 Hj. revert j E1 Hj. induction L as [|y L IHL]; intros [|j] E1; cbn in E1; try discriminate.
            - inv E1. reflexivity.
            - intros Hj. cbn [skipn]. apply IHL; [exact E1|cbn in Hj; lia]. }
          rewrite Es. reflexivity. }
      rewrite Hrc. apply Hg. lia. }
  split; [intros i Hlt; destruct (Hm i Hlt) as (? & ? & _ & ->); discriminate|]. rewrite E.
  destruct (v_lay _ _ _ _ Hx) as [H1 H2]. split; [|exact H2].
  intros c Hc. rewrite Forall_forall in H1. destruct (H1 c Hc). pose proof (v_fit _ _ _ _ Hx).
  rewrite (v_rc _ _ _ _ Hx). lia.
Qed.

(** C13.  The destructor releases every page exactly once: releasing a page that is not
    allocated is undefined behaviour in the model, and no page remains. *)
Theorem C13_destructor_multi_layer_varlen : forall es fuel rs s,
  ok_keys es -> length es + 3 <= fuel -> ml_run oml fuel es ml_init = Ok rs s ->
  exists s', ml_destroy fuel s = Ok tt s' /\ (forall a, hp s' a = None) /\ gb s' = [].
Proof.
  intros es fu rs s Hv Hf Hr. destruct (mapi_reached oml _ _ _ _ (valid_keys _ Hv) Hf Hr) as [_ Hi].
  eapply mapi_destroy; eauto. lia.
Qed.

(** C14.  CollectStatisticalData. *)
Theorem C14_statistics_multi_layer_varlen : forall es fuel rs s,
  ok_keys es -> length es + 3 <= fuel -> ml_run oml fuel es ml_init = Ok rs s ->
  exists sd D, ml_statistics oml fuel s = Ok sd s /\ length sd = S D /\
    (forall d a, at_depth s d a -> d <= D) /\
    forall k c u v, nth_error sd k = Some (c, u, v) ->
      exists l, NoDup l /\ (forall a, In a l <-> at_depth s k a) /\ c = length l /\
        v = c * page /\ u = uses (hp s) l /\ u <= v.
Proof.
  intros es fu rs s Hv Hf Hr. destruct (mapi_reached oml _ _ _ _ (valid_keys _ Hv) Hf Hr) as [_ Hi].
  eapply mapi_stats; eauto. lia.
Qed.

(** C15.  Balance, and the leaf chain. *)
Theorem C15_balanced_multi_layer_varlen : forall es fuel rs s,
  ok_keys es -> length es + 3 <= fuel -> ml_run oml fuel es ml_init = Ok rs s ->
  exists D a l, (forall d x, at_depth s d x -> (is_leaf s x <-> d = D)) /\
    leftmost_path s (rt s) a /\ chain s a l /\ NoDup l /\
    (forall x, In x l <-> at_depth s D x) /\
    (forall l1 x l2 y l3 nx ny i j kx ky, l = l1 ++ x :: l2 ++ y :: l3 ->
       hp s x = Some nx -> hp s y = Some ny -> i < bn_rc nx -> j < bn_rc ny ->
       bn_key nx i = Some kx -> bn_key ny j = Some ky -> klt kx ky).
Proof.
  intros es fu rs s Hv Hf Hr. destruct (mapi_reached oml _ _ _ _ (valid_keys _ Hv) Hf Hr) as [_ Hi].
  eapply mapi_balance; eauto.
Qed.

(** C33.  Between calls no latch is held (every latch taken was released; releasing one
    not held is [Undef], waiting for an own latch is [Blocked], both excluded). *)
Theorem C33_latches_released_multi_layer_varlen : forall es fuel,
  ok_keys es -> length es + 3 <= fuel ->
  exists rs s, ml_run oml fuel es ml_init = Ok rs s /\ lk s = [].
Proof.
  intros es fu Hv Hf. destruct (mapi_run oml es fu (valid_keys _ Hv) Hf) as (s & A & B).
  do 2 eexists. split; [exact A|]. destruct B as (? & ? & ? & ? & E & _). exact E.
Qed.

End Props.

(** Non-vacuity: keys of one to three bytes on 160-byte pages; the session grows the tree
    to three levels, deletes with tombstones and clean-up, and shrinks it back. *)
Section Examples.
#[local] Existing Instance mvtiny.

Lemma mvtiny_mlgood : VarMLGood mvtiny.
Proof. split; apply Nat.leb_le; vm_compute; reflexivity. Qed.
Lemma vdflt_mlgood : VarMLGood vdflt.
Proof. split; apply Nat.leb_le; vm_compute; reflexivity. Qed.

Definition ins (n : nat) : list (@event mvtiny) := map (fun i => ECall (@CInsert mvtiny (i * 7 mod 61) i)) (seq 0 n).
Definition del (n : nat) : list (@event mvtiny) := map (fun i => ECall (@CDelete mvtiny (i * 5 mod 61))) (seq 0 n).
Definition upd (n : nat) : list (@event mvtiny) := map (fun i => ECall (@CWrite mvtiny (i * 11 mod 61) (100 + i))) (seq 0 n).
Definition demo : list (@event mvtiny) := ins 60 ++ del 30 ++ upd 9 ++ [EGC] ++ del 45.

Lemma demo_keys es : @ok_keys mvtiny es.
Proof.
  intros c _. unfold ok_key. cbn. pose proof (Nat.mod_upper_bound (call_key c) 3). lia.
Qed.

Definition xrun (oml : bool) (es : list (@event mvtiny)) :=
  @ml_run mvtiny (var_ml_ops) oml (length es + 3) es (@ml_init mvtiny (var_ml_ops)).

Definition depth_of oml (es : list (@event mvtiny)) : nat :=
  match xrun oml es with
  | Ok _ s => match @ml_statistics mvtiny var_ml_ops oml (length es + 3) s with Ok sd _ => length sd | _ => 0 end
  | _ => 0
  end.

Example demo_deep : forall oml, depth_of oml (ins 60) = 3 /\ depth_of oml (demo ++ del 61 ++ del 61) = 1.
Proof. intros []; split; vm_compute; reflexivity. Qed.

Example demo_applies oml : exists s, xrun oml demo = Ok (snd (spec_run amap_empty (calls_of demo))) s.
Proof. exact (C04_multi_layer_varlen_is_a_map mvtiny mvtiny_ord mvtiny_sizes mvtiny_good mvtiny_mlgood oml demo _ (demo_keys _) (le_n _)). Qed.

Example demo_scan : forall oml,
  match xrun oml demo with
  | Ok _ s => match @ml_scan mvtiny (var_ml_ops) oml 1000 (Some (10, true)) (Some (40, false)) 100 s with
              | Ok l _ => map fst l = [11; 16; 21; 26; 31; 36] | _ => False end
  | _ => False
  end.
Proof. intros []; vm_compute; reflexivity. Qed.

(** 1 KiB pages with the default ratios and keys of up to 64 bytes are covered. *)
Example default_covered oml (es : list (@event vdflt)) : @ok_keys vdflt es ->
  exists s, @ml_run vdflt (@var_ml_ops vdflt) oml (length es + 3) es (@ml_init vdflt (@var_ml_ops vdflt))
  = Ok (snd (spec_run amap_empty (@calls_of vdflt es))) s.
Proof. intros H. exact (C04_multi_layer_varlen_is_a_map vdflt vdflt_ord vdflt_sizes vdflt_good vdflt_mlgood oml es _ H (le_n _)). Qed.

End Examples.

Print Assumptions C04_multi_layer_varlen_is_a_map.
Print Assumptions C05_scan_exact_multi_layer_varlen.
Print Assumptions C06_scan_bounds_multi_layer_varlen.
Print Assumptions C07_return_codes_multi_layer_varlen.
Print Assumptions C08_pages_fit_multi_layer_varlen.
Print Assumptions C13_destructor_multi_layer_varlen.
Print Assumptions C14_statistics_multi_layer_varlen.
Print Assumptions C15_balanced_multi_layer_varlen.
Print Assumptions C33_latches_released_multi_layer_varlen.
