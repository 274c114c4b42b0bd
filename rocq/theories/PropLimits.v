(** The compile-time size check of the four trees (C09): it is not sufficient, here is what
    goes wrong, and here are conditions that are sufficient.

    The check reads [static_assert(2 * kMaxRecLen <= kMinBlockSize)]: psl/b_tree.hpp:936,
    osl/b_tree.hpp:909, pml/b_tree.hpp:755, oml/b_tree.hpp:835. *)
From Coq Require Import List Arith Bool Lia.
From Verif Require Import Params Mem Common Spec NodeAbs FixModel FixProofs VarModel VarProofs SLIface BaseIface
  FixSL VarSL MLIface FixML VarML TreeState SLModel MLModel WalkModel Inst
  PropSLFix PropSLVar PropMLFix PropMLVar.
Import ListNotations.

(** kMaxRecLen and kMinBlockSize, psl/b_tree.hpp:426-436: the key length is sizeof(Key) for
    fixed-length keys and kMaxVarLenDataSize otherwise; only the variable-length layout
    has metadata. *)
Definition asserted_fixlen (P : Params) : Prop :=
  2 * (ks + Nat.max plen ptrlen) <= page - hdr - ks.
Definition asserted_varlen (P : Params) : Prop :=
  2 * (maxkey + Nat.max plen ptrlen + metalen) <= page - hdr - maxkey.

(** The tuning parameters have their default ratios (utility.hpp, CMakeLists.txt) and the
    header its real size. *)
Definition default_ratios (P : Params) : Prop :=
  hdr = 32 /\ ptrlen = 8 /\ metalen = 8 /\
  maxdel = page / 4 /\ minfree = page / 8 /\ minused = page / 16.

Definition sessions_keys_ok (P : Params) (es : list (@event P)) : Prop :=
  forall c, In c (calls_of es) -> 0 < klen (call_key c) <= maxkey.

(** ** Refutations

    The checks run the model on a literal session; each session is a witness. *)

Definition is_undef {N A} (o : @out N A) : bool := match o with Undef => true | _ => false end.
Lemma is_undef_eq {N A} (o : @out N A) : is_undef o = true -> o = Undef.
Proof. destruct o; try discriminate. reflexivity. Qed.

Definition keys_okb (P : Params) (es : list (@event P)) : bool :=
  forallb (fun c => (0 <? klen (call_key c)) && (klen (call_key c) <=? maxkey)) (calls_of es).
Lemma keys_okb_ok P es : keys_okb P es = true -> sessions_keys_ok P es.
Proof.
  intros H c Hc. unfold keys_okb in H. rewrite forallb_forall in H. specialize (H _ Hc).
  apply andb_true_iff in H as [H1 H2]. apply Nat.ltb_lt in H1. apply Nat.leb_le in H2. lia.
Qed.

(** *** Fixed-length keys: 200-byte keys and 8-byte payloads on the default page.

    The leaf is filled with four records and the fifth write splits it: Split copies
    [keys_[record_count_ + has_high_key_]] as the lowest key although there is none
    (psl/node_fixlen.hpp:817, :830); with these sizes this reads beyond the page. *)
Definition bigkey : Params := natp 200 8 1024 64.
Definition five_writes : list (@event bigkey) :=
  map (fun i => ECall (@CWrite bigkey i i)) [1; 2; 3; 4; 5].

Lemma bigkey_sizes : FixSizes bigkey.
Proof. split; cbn; try reflexivity; try lia; apply Nat.leb_le; vm_compute; reflexivity. Qed.
Lemma bigkey_asserted : asserted_fixlen bigkey.
Proof. apply Nat.leb_le; vm_compute; reflexivity. Qed.
Lemma bigkey_default : default_ratios bigkey.
Proof. repeat split; apply Nat.eqb_eq; vm_compute; reflexivity. Qed.

Theorem C09_fixlen_single_layer_refuted : forall osl,
  exists (P : Params) (es : list (@event P)),
    OrdLaws P /\ FixSizes P /\ asserted_fixlen P /\ default_ratios P /\
    @sl_run P (fix_sl_ops osl) osl 30 es (@sl_init P (fix_sl_ops osl)) = Undef.
Proof.
  intros osl. exists bigkey, five_writes.
  split; [apply natp_ord|]. split; [apply bigkey_sizes|]. split; [apply bigkey_asserted|].
  split; [apply bigkey_default|]. apply is_undef_eq. destruct osl; vm_compute; reflexivity.
Qed.

Theorem C09_fixlen_multi_layer_refuted : forall oml,
  exists (P : Params) (es : list (@event P)),
    OrdLaws P /\ FixSizes P /\ asserted_fixlen P /\ default_ratios P /\
    @ml_run P fix_ml_ops oml 30 es (@ml_init P fix_ml_ops) = Undef.
Proof.
  intros oml. exists bigkey, five_writes.
  split; [apply natp_ord|]. split; [apply bigkey_sizes|]. split; [apply bigkey_asserted|].
  split; [apply bigkey_default|]. apply is_undef_eq. destruct oml; vm_compute; reflexivity.
Qed.

(** *** Variable-length keys: the default configuration (1 KiB pages, keys of up to 128
    bytes, 8-byte payloads). *)
Definition dvar : Params := natv 128 8 1024 64.
(** The key of rank [q] with [len] bytes; among equal ranks the shorter key is smaller. *)
Definition dkey (q len : nat) : nat := q * 128 + (len - 1).
Definition dput (q len : nat) : @event dvar := ECall (@CInsert dvar (dkey q len) q).
Definition ddel (q len : nat) : @event dvar := ECall (@CDelete dvar (dkey q len)).
Definition dget (q len : nat) : @event dvar := ECall (@CRead dvar (dkey q len)).

Lemma dvar_sizes : VarSizes dvar.
Proof. split; cbn; apply Nat.leb_le; vm_compute; reflexivity. Qed.
Lemma dvar_asserted : asserted_varlen dvar.
Proof. apply Nat.leb_le; vm_compute; reflexivity. Qed.
Lemma dvar_default : default_ratios dvar.
Proof. repeat split; apply Nat.eqb_eq; vm_compute; reflexivity. Qed.

(** Twelve calls.  The last one splits a leaf whose border keys take 256 bytes: half_size
    counts the border keys, so the loop that fills the left half consumes every record and
    the separator is taken from [meta_array_[record_count_]], which holds no record
    (psl/node_varlen.hpp:836, :847-856; pml/node_varlen.hpp:714, :721-729). *)
Definition bad_split : list (@event dvar) :=
  [dput 1 128; dput 8 128; dput 15 128; dput 17 128; dput 20 128; dput 25 128; dput 24 113;
   dput 31 128; dput 21 119; dput 21 67; ddel 20 128; dput 23 128].

Theorem C09_varlen_single_layer_refuted : forall osl,
  exists (P : Params) (es : list (@event P)),
    OrdLaws P /\ VarSizes P /\ asserted_varlen P /\ default_ratios P /\ sessions_keys_ok P es /\
    @sl_run P (var_sl_ops osl) osl 30 es (@sl_init P (var_sl_ops osl)) = Undef.
Proof.
  intros osl. exists dvar, bad_split.
  split; [apply natv_ord|]. split; [apply dvar_sizes|]. split; [apply dvar_asserted|].
  split; [apply dvar_default|]. split; [apply keys_okb_ok; vm_compute; reflexivity|].
  apply is_undef_eq. destruct osl; vm_compute; reflexivity.
Qed.

Definition bad_split_ml : list (@event dvar) :=
  [dput 8 128; dput 15 128; dput 20 128; dput 25 128; dput 29 128; dput 4 128; dput 24 128;
   dput 31 128; dput 27 59; ddel 20 128; dput 27 118; ddel 25 128].

Theorem C09_varlen_multi_layer_refuted : forall oml,
  exists (P : Params) (es : list (@event P)),
    OrdLaws P /\ VarSizes P /\ asserted_varlen P /\ default_ratios P /\ sessions_keys_ok P es /\
    @ml_run P var_ml_ops oml 30 es (@ml_init P var_ml_ops) = Undef.
Proof.
  intros oml. exists dvar, bad_split_ml.
  split; [apply natv_ord|]. split; [apply dvar_sizes|]. split; [apply dvar_asserted|].
  split; [apply dvar_default|]. split; [apply keys_okb_ok; vm_compute; reflexivity|].
  apply is_undef_eq. destruct oml; vm_compute; reflexivity.
Qed.

(** Second defect, single-layer trees: after a split the record may still not fit into the
    half it belongs to.  BTreePSL ignores the second kNeedSplit (psl/b_tree.hpp:199-203) and
    reports success although the record was not stored; BTreeOSL writes it regardless
    (osl/b_tree.hpp:195-199, InsertRecord) and overruns the page. *)
Definition tight_split : list (@event dvar) :=
  [dput 1 128; dput 2 128; dput 3 128; dput 4 128; dput 5 128; dput 6 128; dput 8 128;
   dput 7 1; dput 9 128; dput 10 19; dput 7 128; dget 7 128].

Definition lost (P : Params) {N} (o : @out N (list (@ret P))) : bool :=
  match o with
  | Ok rs _ => match rev rs with
               | RPayload None :: RSuccess :: _ => true
               | _ => false
               end
  | _ => false
  end.

Theorem C09_varlen_psl_loses_a_record_refuted :
  exists (P : Params) (es : list (@event P)) (k : @K P) (v : @V P) rs s,
    OrdLaws P /\ VarSizes P /\ asserted_varlen P /\ default_ratios P /\
    sessions_keys_ok P (es ++ [ECall (CInsert k v); ECall (CRead k)]) /\
    @sl_run P (var_sl_ops false) false 30 (es ++ [ECall (CInsert k v); ECall (CRead k)])
            (@sl_init P (var_sl_ops false)) = Ok (rs ++ [RSuccess; RPayload None]) s.
Proof.
  assert (H : lost dvar (@sl_run dvar (var_sl_ops false) false 30 tight_split
                                 (@sl_init dvar (var_sl_ops false))) = true)
    by (vm_compute; reflexivity).
  destruct (@sl_run dvar (var_sl_ops false) false 30 tight_split (@sl_init dvar (var_sl_ops false)))
    as [rs s| | |] eqn:E; try discriminate H.
  cbn [lost] in H. destruct (rev rs) as [|r1 l1] eqn:E1; [discriminate H|].
  destruct r1 as [[|]| | |]; try discriminate H.
  destruct l1 as [|r2 l2]; [discriminate H|]. destruct r2 as [ | | | ]; try discriminate H.
  exists dvar, (firstn 10 tight_split), (dkey 7 128), 7, (rev l2), s.
  split; [apply natv_ord|]. split; [apply dvar_sizes|]. split; [apply dvar_asserted|].
  split; [apply dvar_default|]. split; [apply keys_okb_ok; vm_compute; reflexivity|].
  replace (rev l2 ++ [RSuccess; RPayload None]) with rs; [exact E|].
  rewrite <- (rev_involutive rs), E1. cbn [rev]. now rewrite <- app_assoc.
Qed.

Theorem C09_varlen_osl_overruns_the_page_refuted :
  exists (P : Params) (es : list (@event P)),
    OrdLaws P /\ VarSizes P /\ asserted_varlen P /\ default_ratios P /\ sessions_keys_ok P es /\
    @sl_run P (var_sl_ops true) true 30 es (@sl_init P (var_sl_ops true)) = Undef.
Proof.
  exists dvar, tight_split.
  split; [apply natv_ord|]. split; [apply dvar_sizes|]. split; [apply dvar_asserted|].
  split; [apply dvar_default|]. split; [apply keys_okb_ok; vm_compute; reflexivity|].
  apply is_undef_eq. vm_compute; reflexivity.
Qed.

(** Third defect, BTreePML: a merge during the descent may leave less free space
    (kMinFreeSpaceSize) than one record needs, and the insertion that follows does not check
    again (pml/b_tree.hpp:642-656, pml/node_varlen.hpp:1150-1170): the new record and the
    metadata array overlap. *)
Definition tight_merge : list (@event dvar) :=
  [dput 1 128; dput 2 128; dput 3 128; dput 4 10; dput 5 1; dput 6 128; dput 7 128; dput 8 128;
   dput 9 128; dput 10 128; dput 11 82; ddel 1 128; ddel 2 128; ddel 3 128; dput 0 128].

Definition overfull (P : Params) (o : @out vnode (list (@ret P))) : bool :=
  match o with
  | Ok _ s => match hp s 1 with Some n => page <? hdr + vn_rc n * metalen + vn_block n | None => false end
  | _ => false
  end.

Theorem C09_varlen_pml_merge_overflow_refuted :
  exists (P : Params) (es : list (@event P)) rs s a n,
    OrdLaws P /\ VarSizes P /\ asserted_varlen P /\ default_ratios P /\ sessions_keys_ok P es /\
    @ml_run P var_ml_ops false 30 es (@ml_init P var_ml_ops) = Ok rs s /\
    hp s a = Some n /\ page < hdr + vn_rc n * metalen + vn_block n.
Proof.
  assert (H : overfull dvar (@ml_run dvar var_ml_ops false 30 tight_merge (@ml_init dvar var_ml_ops)) = true)
    by (vm_compute; reflexivity).
  destruct (@ml_run dvar var_ml_ops false 30 tight_merge (@ml_init dvar var_ml_ops)) as [rs s| | |] eqn:E;
    try discriminate H.
  cbn [overfull] in H. destruct (@hp vnode s 1) as [n|] eqn:E1; [|discriminate H].
  exists dvar, tight_merge, rs, s, 1, n.
  split; [apply natv_ord|]. split; [apply dvar_sizes|]. split; [apply dvar_asserted|].
  split; [apply dvar_default|]. split; [apply keys_okb_ok; vm_compute; reflexivity|].
  split; [exact E|]. split; [exact E1|]. now apply Nat.ltb_lt.
Qed.

(** ** Sufficient conditions, spelled out *)

(** Room for four records and two border keys, and the unused lowest-key slot that Split
    and Merge copy lies inside the page. *)
Theorem C09_fixlen_single_layer_sufficient :
  forall (P : Params), OrdLaws P -> FixSizes P ->
  hdr + 4 * (ks + Nat.max plen ptrlen) + 2 * ks <= page ->
  ks <= plen * ((page - hdr - 3 * ks - plen) / (ks + plen)) ->
  ks <= ptrlen * ((page - hdr - 3 * ks - ptrlen) / (ks + ptrlen)) ->
  forall osl es fuel, length es + 3 <= fuel ->
  exists s, @sl_run P (fix_sl_ops osl) osl fuel es (@sl_init P (fix_sl_ops osl))
            = Ok (snd (spec_run amap_empty (calls_of es))) s.
Proof.
  intros P O F H1 H2 H3 osl es fuel Hf.
  exact (@C01_single_layer_fixlen_is_a_map P O F {| fg_cap := H1; fg_read_leaf := H2; fg_read_inner := H3 |}
           osl es fuel Hf).
Qed.

Theorem C09_fixlen_multi_layer_sufficient :
  forall (P : Params), OrdLaws P -> FixSizes P ->
  hdr + 4 * (ks + Nat.max plen ptrlen) + 2 * ks <= page ->
  ks <= plen * ((page - hdr - 3 * ks - Nat.max plen ptrlen) / (ks + plen)) ->
  ks <= ptrlen * ((page - hdr - 3 * ks - Nat.max plen ptrlen) / (ks + ptrlen)) ->
  Nat.max plen ptrlen <= minfree ->
  forall oml es fuel, length es + 3 <= fuel ->
  exists s, @ml_run P fix_ml_ops oml fuel es (@ml_init P fix_ml_ops)
            = Ok (snd (spec_run amap_empty (calls_of es))) s.
Proof.
  intros P O F H1 H2 H3 H4 oml es fuel Hf.
  exact (@C02_multi_layer_fixlen_is_a_map P O F
           {| fm_cap := H1; fm_read_leaf := H2; fm_read_inner := H3; fm_free := H4 |} oml es fuel Hf).
Qed.

Theorem C09_varlen_single_layer_sufficient :
  forall (P : Params), OrdLaws P -> VarSizes P ->
  hdr + 4 * (maxkey + Nat.max plen ptrlen + metalen) + 4 * maxkey <= page ->
  hdr + minfree + 3 * (maxkey + Nat.max plen ptrlen + metalen) + 4 * maxkey <= page ->
  forall osl es fuel, sessions_keys_ok P es -> length es + 3 <= fuel ->
  exists s, @sl_run P (var_sl_ops osl) osl fuel es (@sl_init P (var_sl_ops osl))
            = Ok (snd (spec_run amap_empty (calls_of es))) s.
Proof.
  intros P O F H1 H2 osl es fuel Hk Hf.
  exact (@C03_single_layer_varlen_is_a_map P O F {| vg_cap := H1; vg_split := H2 |} osl es fuel Hk Hf).
Qed.

Theorem C09_varlen_multi_layer_sufficient :
  forall (P : Params), OrdLaws P -> VarSizes P ->
  hdr + 4 * (maxkey + Nat.max plen ptrlen + metalen) + 4 * maxkey <= page ->
  hdr + minfree + 3 * (maxkey + Nat.max plen ptrlen + metalen) + 4 * maxkey <= page ->
  maxkey + Nat.max plen ptrlen + metalen <= minfree ->
  forall oml es fuel, sessions_keys_ok P es -> length es + 3 <= fuel ->
  exists s, @ml_run P var_ml_ops oml fuel es (@ml_init P var_ml_ops)
            = Ok (snd (spec_run amap_empty (calls_of es))) s.
Proof.
  intros P O F H1 H2 H3 oml es fuel Hk Hf.
  exact (@C04_multi_layer_varlen_is_a_map P O F {| vg_cap := H1; vg_split := H2 |}
           {| vm_free := H3 |} oml es fuel Hk Hf).
Qed.

(** On the default page with payloads of at most 8 bytes: fixed-length keys of at most 72
    bytes, and variable-length keys of at most 112 bytes, are safe in all four trees. *)
Theorem C09_default_page_fixlen :
  forall (P : Params), OrdLaws P -> FixSizes P -> default_ratios P -> page = 1024 ->
  plen = 8 -> ks <= 72 ->
  (forall osl es fuel, length es + 3 <= fuel ->
   exists s, @sl_run P (fix_sl_ops osl) osl fuel es (@sl_init P (fix_sl_ops osl))
             = Ok (snd (spec_run amap_empty (calls_of es))) s) /\
  (forall oml es fuel, length es + 3 <= fuel ->
   exists s, @ml_run P fix_ml_ops oml fuel es (@ml_init P fix_ml_ops)
             = Ok (snd (spec_run amap_empty (calls_of es))) s).
Proof.
  intros P O F (Eh & Ep & Em & Ed & Ef & Eu) Epg El Hk.
  pose proof fx_ks_pos as Hpos.
  assert (Hc : ks <= 8 * ((1024 - 32 - 3 * ks - 8) / (ks + 8))).
  { clear - Hk Hpos. revert Hk Hpos. generalize (@ks P). intros n Hk Hpos.
    assert (X : forallb (fun n => n <=? 8 * ((1024 - 32 - 3 * n - 8) / (n + 8))) (seq 1 72) = true)
      by (vm_compute; reflexivity).
    rewrite forallb_forall in X. specialize (X n). cbv beta in X.
    apply Nat.leb_le. apply X. apply in_seq. lia. }
  assert (Em8 : Nat.max (@plen P) (@ptrlen P) = 8) by (rewrite El, Ep; reflexivity).
  assert (H1 : hdr + 4 * (ks + Nat.max plen ptrlen) + 2 * ks <= page).
  { rewrite Em8, Eh, Epg. clear - Hk. revert Hk. generalize (@ks P). intros n Hn. lia. }
  split.
  - intros osl es fuel Hf. apply C09_fixlen_single_layer_sufficient; auto.
    + rewrite El, Eh, Epg. exact Hc.
    + rewrite Ep, Eh, Epg. exact Hc.
  - intros oml es fuel Hf. apply C09_fixlen_multi_layer_sufficient; auto.
    + rewrite Em8, El, Eh, Epg. exact Hc.
    + rewrite Em8, Ep, Eh, Epg. exact Hc.
    + rewrite Em8, Ef, Epg. apply Nat.leb_le; vm_compute; reflexivity.
Qed.

Theorem C09_default_page_varlen :
  forall (P : Params), OrdLaws P -> VarSizes P -> default_ratios P -> page = 1024 ->
  plen <= 8 -> maxkey <= 112 ->
  (forall osl es fuel, sessions_keys_ok P es -> length es + 3 <= fuel ->
   exists s, @sl_run P (var_sl_ops osl) osl fuel es (@sl_init P (var_sl_ops osl))
             = Ok (snd (spec_run amap_empty (calls_of es))) s) /\
  (forall oml es fuel, sessions_keys_ok P es -> length es + 3 <= fuel ->
   exists s, @ml_run P var_ml_ops oml fuel es (@ml_init P var_ml_ops)
             = Ok (snd (spec_run amap_empty (calls_of es))) s).
Proof.
  intros P O F (Eh & Ep & Em & Ed & Ef & Eu) Epg El Hk.
  assert (Em8 : Nat.max (@plen P) (@ptrlen P) = 8) by (rewrite Ep; apply Nat.max_r; exact El).
  assert (Ef' : @minfree P = 128) by (rewrite Ef, Epg; vm_compute; reflexivity).
  assert (H1 : hdr + 4 * (maxkey + Nat.max plen ptrlen + metalen) + 4 * maxkey <= page).
  { rewrite Em8, Em, Eh, Epg. clear - Hk. revert Hk. generalize (@maxkey P). intros n Hn. lia. }
  assert (H2 : hdr + minfree + 3 * (maxkey + Nat.max plen ptrlen + metalen) + 4 * maxkey <= page).
  { rewrite Em8, Em, Eh, Epg, Ef'. clear - Hk. revert Hk. generalize (@maxkey P). intros n Hn. lia. }
  split.
  - intros osl es fuel Hks Hf. now apply C09_varlen_single_layer_sufficient.
  - intros oml es fuel Hks Hf. apply C09_varlen_multi_layer_sufficient; auto.
    rewrite Em8, Em, Ef'. clear - Hk. revert Hk. generalize (@maxkey P). intros n Hn. lia.
Qed.

(** The hypotheses are met: 112-byte keys on the default page. *)
Example C09_default_page_varlen_applies :
  let P := natv 112 8 1024 64 in
  OrdLaws P /\ VarSizes P /\ default_ratios P /\ @page P = 1024 /\ @plen P <= 8 /\ @maxkey P <= 112 /\
  exists s, @sl_run P (var_sl_ops false) false 30
              (map (fun i => ECall (@CInsert P (i * 112 + 111) i)) (seq 1 20))
              (@sl_init P (var_sl_ops false)) = Ok (map (fun _ => RSuccess) (seq 1 20)) s.
Proof.
  intros P. assert (O : OrdLaws P) by apply natv_ord.
  assert (F : VarSizes P) by (split; cbn; apply Nat.leb_le; vm_compute; reflexivity).
  assert (D : default_ratios P) by (repeat split; apply Nat.eqb_eq; vm_compute; reflexivity).
  assert (E1 : @page P = 1024) by (apply Nat.eqb_eq; vm_compute; reflexivity).
  assert (E2 : @plen P <= 8) by (apply Nat.leb_le; vm_compute; reflexivity).
  assert (E3 : @maxkey P <= 112) by (apply Nat.leb_le; vm_compute; reflexivity).
  repeat (split; [assumption|]).
  destruct (C09_default_page_varlen P O F D E1 E2 E3) as [H _].
  destruct (H false (map (fun i => ECall (@CInsert P (i * 112 + 111) i)) (seq 1 20)) 30) as (s & Hs).
  - apply keys_okb_ok. vm_compute. reflexivity.
  - apply Nat.leb_le. vm_compute. reflexivity.
  - exists s. rewrite Hs. f_equal.
Qed.

Example C09_default_page_fixlen_applies :
  OrdLaws dflt /\ FixSizes dflt /\ default_ratios dflt /\ @page dflt = 1024 /\ @plen dflt = 8 /\ @ks dflt <= 72.
Proof.
  split; [apply dflt_ord|]. split; [apply dflt_sizes|].
  split; [repeat split; apply Nat.eqb_eq; vm_compute; reflexivity|].
  split; [apply Nat.eqb_eq; vm_compute; reflexivity|].
  split; [apply Nat.eqb_eq; vm_compute; reflexivity|]. apply Nat.leb_le; vm_compute; reflexivity.
Qed.

Print Assumptions C09_fixlen_single_layer_refuted.
Print Assumptions C09_fixlen_multi_layer_refuted.
Print Assumptions C09_varlen_single_layer_refuted.
Print Assumptions C09_varlen_multi_layer_refuted.
Print Assumptions C09_varlen_psl_loses_a_record_refuted.
Print Assumptions C09_varlen_osl_overruns_the_page_refuted.
Print Assumptions C09_varlen_pml_merge_overflow_refuted.
Print Assumptions C09_fixlen_single_layer_sufficient.
Print Assumptions C09_fixlen_multi_layer_sufficient.
Print Assumptions C09_varlen_single_layer_sufficient.
Print Assumptions C09_varlen_multi_layer_sufficient.
Print Assumptions C09_default_page_fixlen.
Print Assumptions C09_default_page_varlen.
