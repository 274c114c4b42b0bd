(** Properties of BTreePML ([oml = false]) and BTreeOML ([oml = true]) with the
    fixed-length node layout, used by one thread.

    [ml_run oml fuel es ml_init] (MLModel.v) executes the model of the C++ code on the
    events [es] (calls, and garbage collections at arbitrary points) from a fresh tree.
    [Ok results state] is the only good outcome: [Undef] stands for undefined behaviour
    (reading outside the stored bytes, null or dangling pointers, unlocking what is not
    held), [Blocked] for waiting on a latch the caller itself holds, [NoFuel] for a loop
    that did not finish.  The specification is Spec.v alone. *)
From Coq Require Import List Arith Bool Lia Sorted.
From Verif Require Import Params Mem Common Spec NodeAbs FixModel FixProofs SLIface BaseIface
  MLIface FixML TreeState SLModel WalkModel WalkProofs IterModel MLModel MLScanModel MLProofs MLApi Inst.
Import ListNotations.

Section Props.
Context (P : Params) (O : OrdLaws P) (F : FixSizes P) (G : FixMLGood P) (oml : bool).
#[local] Instance ops : MLOps P := fix_ml_ops.
#[local] Instance laws : MLLaws P ops := fix_ml_laws.
#[local] Instance wops : BaseOps P := base_of_ml ops.

Lemma all_valid (es : list event) : mkeys_valid es.
Proof. intros c _. exact I. Qed.

(** C02.  Every finite session terminates without undefined behaviour and returns what
    the plain map returns; the number of loop iterations needed is bounded by the
    session's length. *)
Theorem C02_multi_layer_fixlen_is_a_map : forall (es : list event) fuel,
  length es + 3 <= fuel ->
  exists s, ml_run oml fuel es ml_init = Ok (snd (spec_run amap_empty (calls_of es))) s.
Proof. intros es fu Hf. destruct (mapi_run oml es fu (all_valid es) Hf) as (s & A & _). eauto. Qed.

(** C05.  A scan after any session delivers exactly the records in range, ascending;
    [limit] is how often the caller advances the iterator. *)
Theorem C05_scan_exact_multi_layer_fixlen : forall es fuel rs s lo hi,
  length es + 3 <= fuel -> ml_run oml fuel es ml_init = Ok rs s ->
  exists l F, is_scan (fst (spec_run amap_empty (calls_of es))) lo hi l /\
    forall fuel' limit, F <= fuel' -> ml_scan oml fuel' lo hi limit s = Ok (firstn limit l) s.
Proof.
  intros es fu rs s lo hi Hf Hr. destruct (mapi_reached oml _ _ _ _ (all_valid es) Hf Hr) as [_ Hi].
  eapply ml_scan_ok; eauto; intros ? ? ?; exact I.
Qed.

(** C06.  The bounds: nothing outside the range is returned, open bounds exclude,
    closed bounds include a stored key. *)
Theorem C06_scan_bounds_multi_layer_fixlen : forall es fuel rs s lo hi,
  length es + 3 <= fuel -> ml_run oml fuel es ml_init = Ok rs s ->
  exists F, forall fuel' limit, F <= fuel' -> exists l,
    ml_scan oml fuel' lo hi limit s = Ok l s /\
    (forall b c k v, lo = Some (b, c) -> In (k, v) l -> kle b k /\ (c = false -> k <> b)) /\
    (forall b c k v, hi = Some (b, c) -> In (k, v) l -> kle k b /\ (c = false -> k <> b)) /\
    (length l < limit -> forall b v, ml_call oml fuel (CRead b) s = Ok (RPayload (Some v)) s ->
       (lo = Some (b, true) -> below hi b -> In (b, v) l) /\
       (hi = Some (b, true) -> above lo b -> In (b, v) l)).
Proof.
  intros es fu rs s lo hi Hf Hr. destruct (mapi_reached oml _ _ _ _ (all_valid es) Hf Hr) as [_ Hi].
  destruct (ml_scan_ok oml _ _ _ lo hi Hi) as (l & F' & [Hs Hl] & Hrun); [intros ? ? ?; exact I..|].
  exists F'. intros fu' limit Hfu'. exists (firstn limit l). split; [auto|].
  assert (Hin : forall x, In x (firstn limit l) -> In x l) by (intros x Hx; rewrite <- (firstn_skipn limit l); apply in_or_app; auto).
  split; [|split].
  - intros b c k v -> H. apply Hin, Hl in H as (_ & H & _). cbn in H. destruct c.
    + split; [exact H|discriminate].
    + split; [now apply klt_kle|]. intros _ ->. exact (klt_irrefl _ H).
  - intros b c k v -> H. apply Hin, Hl in H as (_ & _ & H). cbn in H. destruct c.
    + split; [exact H|discriminate].
    + split; [now apply klt_kle|]. intros _ ->. exact (klt_irrefl _ H).
  - intros Hlen b v Hb. rewrite firstn_length in Hlen. rewrite firstn_all2 by lia.
    rewrite (ml_read_ok _ _ _ _ _ _ Hi I) in Hb by lia. inv Hb.
    split; intros -> H; apply Hl; cbn; auto using kle_refl.
Qed.

(** C07.  Return codes, stated only through what Read reports before and after. *)
Theorem C07_return_codes_multi_layer_fixlen : forall es fuel rs s k v,
  length es + 4 <= fuel -> ml_run oml fuel es ml_init = Ok rs s ->
  exists m, (forall k', ml_call oml fuel (CRead k') s = Ok (RPayload (m k')) s) /\
  let same s' := forall k', ml_call oml fuel (CRead k') s' = Ok (RPayload (m k')) s' in
  let only o s' := forall k', ml_call oml fuel (CRead k') s' =
                     Ok (RPayload (if keqb k' k then o else m k')) s' in
  (exists s', ml_call oml fuel (CWrite k v) s = Ok RSuccess s' /\ only (Some v) s') /\
  (m k = None -> exists s', ml_call oml fuel (CInsert k v) s = Ok RSuccess s' /\ only (Some v) s') /\
  (m k <> None -> exists s', ml_call oml fuel (CInsert k v) s = Ok RKeyExist s' /\ same s') /\
  (m k <> None -> exists s', ml_call oml fuel (CUpdate k v) s = Ok RSuccess s' /\ only (Some v) s') /\
  (m k = None -> exists s', ml_call oml fuel (CUpdate k v) s = Ok RKeyNotExist s' /\ same s') /\
  (m k <> None -> exists s', ml_call oml fuel (CDelete k) s = Ok RSuccess s' /\ only None s') /\
  (m k = None -> exists s', ml_call oml fuel (CDelete k) s = Ok RKeyNotExist s' /\ same s').
Proof.
  intros es fu rs s k v Hf Hr.
  destruct (mapi_reached oml _ _ _ _ (all_valid es) (ltac:(lia) : length es + 3 <= fu) Hr) as [_ Hi].
  set (m := fst (spec_run amap_empty (calls_of es))) in *. exists m.
  assert (Hst : forall c, exists s', ml_call oml fu c s = Ok (snd (spec_step m c)) s' /\
      forall k', ml_call oml fu (CRead k') s' = Ok (RPayload (fst (spec_step m c) k')) s').
  { intros c. destruct (mapi_step oml _ _ _ c fu Hi I) as (s' & A & _ & B); [lia|].
    exists s'. split; [exact A|]. intros k'. apply B; [exact I|lia]. }
  split; [intros k'; eapply ml_read_ok; [exact Hi|exact I|lia]|].
  cbv zeta. repeat split; intros;
    match goal with |- exists s', ml_call _ _ ?c _ = _ /\ _ => destruct (Hst c) as (s' & A & B) end;
    exists s'; cbn [spec_step fst snd] in A, B; unfold amap_set in B;
    try (destruct (m k) eqn:E; try congruence); cbn [fst snd] in A, B; auto.
Qed.

(** C08.  Each page of a reachable tree holds its header, keys and records without
    overlap ([fx_used] is the size of the key array plus that of the record block). *)
Theorem C08_pages_fit_multi_layer_fixlen : forall es fuel rs s d a n,
  length es + 3 <= fuel -> ml_run oml fuel es ml_init = Ok rs s ->
  at_depth s d a -> hp s a = Some n -> hdr + fx_used n <= page.
Proof.
  intros es fu rs s d a n Hf Hr Hd Hn. destruct (mapi_reached oml _ _ _ _ (all_valid es) Hf Hr) as [_ Hi].
  destruct (mapi_rep oml _ _ _ _ _ _ Hi Hd Hn) as (x & Hx). apply (fr_fits _ _ Hx).
Qed.

(** C13.  The destructor releases every page exactly once: releasing a page that is not
    allocated is undefined behaviour in the model, and no page remains. *)
Theorem C13_destructor_multi_layer_fixlen : forall es fuel rs s,
  length es + 3 <= fuel -> ml_run oml fuel es ml_init = Ok rs s ->
  exists s', ml_destroy fuel s = Ok tt s' /\ (forall a, hp s' a = None) /\ gb s' = [].
Proof.
  intros es fu rs s Hf Hr. destruct (mapi_reached oml _ _ _ _ (all_valid es) Hf Hr) as [_ Hi].
  eapply mapi_destroy; eauto. lia.
Qed.

(** C14.  CollectStatisticalData. *)
Theorem C14_statistics_multi_layer_fixlen : forall es fuel rs s,
  length es + 3 <= fuel -> ml_run oml fuel es ml_init = Ok rs s ->
  exists sd D, ml_statistics oml fuel s = Ok sd s /\ length sd = S D /\
    (forall d a, at_depth s d a -> d <= D) /\
    forall k c u v, nth_error sd k = Some (c, u, v) ->
      exists l, NoDup l /\ (forall a, In a l <-> at_depth s k a) /\ c = length l /\
        v = c * page /\ u = uses (hp s) l /\ u <= v.
Proof.
  intros es fu rs s Hf Hr. destruct (mapi_reached oml _ _ _ _ (all_valid es) Hf Hr) as [_ Hi].
  eapply mapi_stats; eauto. lia.
Qed.

(** C15.  Balance, and the leaf chain. *)
Theorem C15_balanced_multi_layer_fixlen : forall es fuel rs s,
  length es + 3 <= fuel -> ml_run oml fuel es ml_init = Ok rs s ->
  exists D a l, (forall d x, at_depth s d x -> (is_leaf s x <-> d = D)) /\
    leftmost_path s (rt s) a /\ chain s a l /\ NoDup l /\
    (forall x, In x l <-> at_depth s D x) /\
    (forall l1 x l2 y l3 nx ny i j kx ky, l = l1 ++ x :: l2 ++ y :: l3 ->
       hp s x = Some nx -> hp s y = Some ny -> i < bn_rc nx -> j < bn_rc ny ->
       bn_key nx i = Some kx -> bn_key ny j = Some ky -> klt kx ky).
Proof.
  intros es fu rs s Hf Hr. destruct (mapi_reached oml _ _ _ _ (all_valid es) Hf Hr) as [_ Hi].
  eapply mapi_balance; eauto.
Qed.

(** C33.  Between calls no latch is held (every latch taken was released; releasing one
    not held is [Undef], waiting for an own latch is [Blocked], both excluded). *)
Theorem C33_latches_released_multi_layer_fixlen : forall es fuel,
  length es + 3 <= fuel ->
  exists rs s, ml_run oml fuel es ml_init = Ok rs s /\ lk s = [].
Proof.
  intros es fu Hf. destruct (mapi_run oml es fu (all_valid es) Hf) as (s & A & B).
  do 2 eexists. split; [exact A|]. destruct B as (? & ? & ? & ? & E & _). exact E.
Qed.

End Props.

(** Non-vacuity: a session on 160-byte pages that grows the tree to three levels and (emptied)
    shrinks it back to a single leaf; both multi-layer variants. *)
Section Examples.
#[local] Existing Instance tiny.

Lemma tiny_mlgood : FixMLGood tiny.
Proof. split; apply Nat.leb_le; vm_compute; reflexivity. Qed.
Lemma dflt_mlgood : FixMLGood dflt.
Proof. split; apply Nat.leb_le; vm_compute; reflexivity. Qed.

Definition ins (n : nat) : list (@event tiny) := map (fun i => ECall (@CInsert tiny (i * 7 mod 61) i)) (seq 0 n).
Definition del (n : nat) : list (@event tiny) := map (fun i => ECall (@CDelete tiny (i * 5 mod 61))) (seq 0 n).
Definition demo : list (@event tiny) := ins 60 ++ del 30 ++ [EGC] ++ del 45.

Definition xrun (oml : bool) (es : list (@event tiny)) :=
  @ml_run tiny (fix_ml_ops) oml (length es + 3) es (@ml_init tiny (fix_ml_ops)).

Definition depth_of oml (es : list (@event tiny)) : nat :=
  match xrun oml es with
  | Ok _ s => match @ml_statistics tiny fix_ml_ops oml (length es + 3) s with Ok sd _ => length sd | _ => 0 end
  | _ => 0
  end.

Example demo_deep : forall oml, depth_of oml (ins 60) = 3 /\ depth_of oml (demo ++ del 61) = 1.
Proof. intros []; split; vm_compute; reflexivity. Qed.

Example demo_applies oml : exists s, xrun oml demo = Ok (snd (spec_run amap_empty (calls_of demo))) s.
Proof. exact (C02_multi_layer_fixlen_is_a_map tiny tiny_ord tiny_sizes tiny_mlgood oml demo _ (le_n _)). Qed.

Example demo_scan : forall oml,
  match xrun oml demo with
  | Ok _ s => match @ml_scan tiny (fix_ml_ops) oml 1000 (Some (10, true)) (Some (40, false)) 100 s with
              | Ok l _ => map fst l = [11; 16; 21; 26; 31; 36] | _ => False end
  | _ => False
  end.
Proof. intros []; vm_compute; reflexivity. Qed.

(** The default configuration (1 KiB pages, 8-byte keys and payloads) is covered. *)
Example default_covered oml (es : list (@event dflt)) :
  exists s, @ml_run dflt (@fix_ml_ops dflt) oml (length es + 3) es (@ml_init dflt (@fix_ml_ops dflt))
  = Ok (snd (spec_run amap_empty (@calls_of dflt es))) s.
Proof. exact (C02_multi_layer_fixlen_is_a_map dflt dflt_ord dflt_sizes dflt_mlgood oml es _ (le_n _)). Qed.

End Examples.

Print Assumptions C02_multi_layer_fixlen_is_a_map.
Print Assumptions C05_scan_exact_multi_layer_fixlen.
Print Assumptions C06_scan_bounds_multi_layer_fixlen.
Print Assumptions C07_return_codes_multi_layer_fixlen.
Print Assumptions C08_pages_fit_multi_layer_fixlen.
Print Assumptions C13_destructor_multi_layer_fixlen.
Print Assumptions C14_statistics_multi_layer_fixlen.
Print Assumptions C15_balanced_multi_layer_fixlen.
Print Assumptions C33_latches_released_multi_layer_fixlen.
