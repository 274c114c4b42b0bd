(** The fixed-length node satisfies the multi-layer interface. *)
From Coq Require Import List Arith ZArith Bool Sorted Lia.
From Verif Require Import Params Mem Common NodeAbs FixModel FixProofs SLIface BaseIface FixSL MLIface.
Import ListNotations.

Section FixML.
Context {P : Params}.

(** Write on a leaf that is known to have room: pml/node_fixlen.hpp:517-543,
    oml/node_fixlen.hpp:729-748. *)
Definition fx_put (n : fnode) (key : K) (v : V) : option fnode :=
  let? (ex, pos) := fx_search n key in
  match ex with
  | kKeyNotInserted => fx_insert_record n key (PV v) pos
  | _ => fx_overwrite n pos (PV v)
  end.

(** Insert: pml/node_fixlen.hpp:559-580, oml/node_fixlen.hpp:767-799 after its range and
    space checks (there the codes are kCompleted and kKeyAlreadyInserted). *)
Definition fx_add (n : fnode) (key : K) (v : V) : option (return_code * fnode) :=
  let? (ex, pos) := fx_search n key in
  match ex with
  | kKeyNotInserted => let? n' := fx_insert_record n key (PV v) pos in Some (kSuccess, n')
  | _ => Some (kKeyExist, n)
  end.

(** Delete: pml/node_fixlen.hpp:624-651, oml/node_fixlen.hpp:854-888.  No merge here: nodes
    are merged on the way down. *)
Definition fx_del (n : fnode) (key : K) : option (return_code * fnode) :=
  let? (ex, pos) := fx_search n key in
  match ex with
  | kKeyAlreadyInserted => let? n' := fx_remove n pos in Some (kSuccess, n')
  | _ => Some (kKeyNotExist, n)
  end.

(** The right node of an OML merge, oml/node_fixlen.hpp:1033-1038. *)
Definition fx_mark_removed (la : addr) (r : fnode) : fnode :=
  FNode (fn_inner r) true (fn_block r) (fn_rc r) (fn_pl r)
        (if fn_inner r then fn_next r else Some la) (fn_low r) (fn_high r) (fn_mem r).

(** The functions are shared by the pessimistic and the optimistic node
    (pml/node_fixlen.hpp, oml/node_fixlen.hpp). *)
Definition fix_ml_ops : MLOps P := {|
  mn := fnode;
  mn_inner := fn_inner;
  mn_removed := fn_removed;
  mn_next := fn_next;
  mn_rc := fn_rc;
  mn_usage := fx_usage;
  mn_new := fx_new;
  mn_root0 := fx_set_paylen (fx_new false) plen;
  mn_root2 := fx_root2;
  mn_search := fx_search;
  mn_child := fx_child;
  mn_comphigh := fx_comphigh;
  mn_highkey := fx_highkey;
  mn_endpos := fx_endpos;
  mn_recdel := fx_recdel;
  mn_key := fx_key;
  mn_record := fx_record;
  mn_read := fx_read;
  mn_reclen := fun _ => ks + plen;
  mn_maxlen := ks + Nat.max plen ptrlen;
  mn_need_split := fun n len => Some (fx_need_split n len, None);
  mn_need_merge := fun n => Some (fx_need_merge n, None);
  mn_can_merge := fx_can_merge;
  mn_write := fx_put;
  mn_insert := fx_add;
  mn_update := fx_update;
  mn_delete := fx_del;
  mn_insert_child := fx_insert_child_at;
  mn_delete_child := fx_delete_child_at;
  mn_split := fx_split_ml;
  mn_merge := fx_merge_ml;
  mn_mark_removed := fx_mark_removed;
  mn_remove_root := fx_remove_root;
|}.

End FixML.

(** Page configurations in which the fixed-length multi-layer trees work. *)
Class FixMLGood (P : Params) := {
  fm_cap : hdr + 4 * (ks + Nat.max plen ptrlen) + 2 * ks <= page;
  fm_read_leaf : ks <= plen * ((page - hdr - 3 * ks - Nat.max plen ptrlen) / (ks + plen));
  fm_read_inner : ks <= ptrlen * ((page - hdr - 3 * ks - Nat.max plen ptrlen) / (ks + ptrlen));
  fm_free : Nat.max plen ptrlen <= minfree;
}.

Section FixMLProofs.
Context {P : Params} {O : OrdLaws P} {F : FixSizes P} {G : FixMLGood P}.

Lemma fm_splittable n a : frep n a ->
  fx_need_split n (ks + Nat.max plen ptrlen) = true -> fx_splittable n.
Proof.
  intros H E. unfold fx_need_split in E. apply Nat.ltb_lt in E.
  pose proof (frep_fits _ _ H) as Hf.
  unfold fx_splittable, split_readable, fx_used in *.
  rewrite (fr_rc _ _ H), (fr_block _ _ H), (fr_highb _ _ H) in *.
  pose proof fm_cap as Hcap. pose proof (plof_max (a_inner a)) as Hm.
  assert (Hq : ks <= plof (a_inner a) *
                ((page - hdr - 3 * ks - Nat.max plen ptrlen) / (ks + plof (a_inner a)))).
  { destruct (a_inner a); cbn [plof]; [apply fm_read_inner | apply fm_read_leaf]. }
  set (pl := plof (a_inner a)) in *. set (N := length (a_slots a)) in *.
  set (mx := Nat.max plen ptrlen) in *.
  set (lo := b2n (fn_low n)) in *. set (hi := b2n (isSome (a_high a))) in *.
  assert (Hlo : lo <= 1) by apply b2n_le. assert (Hhi : hi <= 1) by apply b2n_le.
  assert (A1 : ks * (N + lo + hi) <= ks * N + 2 * ks).
  { replace (ks * N + 2 * ks) with (ks * (N + 2)) by lia. apply Nat.mul_le_mono_l. lia. }
  assert (HN : 4 <= N).
  { destruct (Nat.le_gt_cases 4 N) as [|Hlt]; auto. exfalso.
    assert (B1 : (ks + pl) * N <= (ks + pl) * 3) by (apply Nat.mul_le_mono_l; lia).
    rewrite Nat.mul_add_distr_r in B1. lia. }
  split; auto.
  assert (Hr : ks <= pl * N).
  { eapply Nat.le_trans; [exact Hq|]. apply Nat.mul_le_mono_l.
    pose proof fx_ks_pos.
    apply Nat.lt_succ_r. apply Nat.div_lt_upper_bound; [lia|].
    rewrite Nat.mul_succ_r, Nat.mul_add_distr_r. lia. }
  unfold fk_off. replace (S (N + hi) * ks) with (ks * (N + hi) + ks) by lia.
  assert (ks * (N + hi) <= ks * (N + lo + hi)) by (apply Nat.mul_le_mono_l; lia).
  lia.
Qed.

Lemma fm_room n a : frep n a -> fx_room n -> hdr + fx_used n + ks + plof (a_inner a) <= page.
Proof.
  intros H Hr. unfold fx_room in Hr. rewrite (fr_pl _ _ H) in Hr. pose proof fx_hdr_page. lia.
Qed.

Lemma fm_read n a key : frep n a -> a_inner a = false -> leaf_ok (a_slots a) ->
  fx_read n key = Some (assoc key (live (a_slots a))).
Proof.
  intros H Hin Hok. unfold fx_read.
  destruct (frep_leaf_search n a key H Hin Hok) as (rc & pos & Hs & Hrc & Hspec). rewrite Hs.
  destruct Hrc as [-> | ->].
  - destruct Hspec as (l1 & s & l2 & Hsl & -> & Hk & Hd).
    destruct (fx_search_pay l1 s l2) as [v Hv]; [rewrite <- Hsl; apply Hok|].
    rewrite (frep_payload n a (length l1) s v H); auto.
    + rewrite Hsl, (assoc_live_found l1 s l2 key v); auto. now rewrite <- Hsl.
    + rewrite Hsl. apply nth_error_mid.
  - destruct Hspec as (l1 & l2 & Hsl & -> & H1 & H2).
    rewrite assoc_live_notin; auto. rewrite Hsl. now apply not_inserted_notin.
Qed.

Lemma fm_put n a key v : frep n a -> a_inner a = false -> leaf_ok (a_slots a) -> fx_room n ->
  exists n' a', fx_put n key v = Some n' /\ frep n' a' /\
    leaf_upd a a' [key] (upsert key v (live (a_slots a))).
Proof.
  intros H Hin Hok Hroom. unfold fx_put.
  destruct (frep_leaf_search n a key H Hin Hok) as (rc & pos & Hs & Hrc & Hspec). rewrite Hs.
  destruct Hrc as [-> | ->].
  - destruct Hspec as (l1 & s & l2 & Hsl & -> & Hk & Hd).
    destruct (fx_overwrite_ok n a l1 s l2 (PV v) H Hsl) as (n' & A & B & C & D).
    { rewrite Hin. reflexivity. }
    rewrite A. do 2 eexists. split; [reflexivity|]. split; [eauto|]. eapply leaf_upd_replace; eauto.
  - destruct Hspec as (l1 & l2 & Hsl & -> & H1 & H2).
    destruct (fx_insert_record_ok n a l1 l2 key (PV v) H Hsl) as (n' & A & B & C & D).
    { rewrite Hin. reflexivity. }
    { apply fm_room; auto. }
    rewrite A. do 2 eexists. split; [reflexivity|]. split; [eauto|]. apply leaf_upd_insert; auto.
Qed.

Lemma fm_add n a key v : frep n a -> a_inner a = false -> leaf_ok (a_slots a) -> fx_room n ->
  exists rc n' a', fx_add n key v = Some (rc, n') /\ frep n' a' /\
    ((rc = kKeyExist /\ n' = n /\ a' = a /\ assoc key (live (a_slots a)) <> None) \/
     (rc = kSuccess /\ assoc key (live (a_slots a)) = None /\
      leaf_upd a a' [key] (upsert key v (live (a_slots a))))).
Proof.
  intros H Hin Hok Hroom. unfold fx_add.
  destruct (frep_leaf_search n a key H Hin Hok) as (rc & pos & Hs & Hrc & Hspec). rewrite Hs.
  destruct Hrc as [-> | ->].
  - destruct Hspec as (l1 & s & l2 & Hsl & -> & Hk & Hd).
    do 3 eexists. split; [reflexivity|]. split; [eauto|]. left. split; auto. split; auto. split; auto.
    destruct (fx_search_pay l1 s l2) as [w Hw]; [rewrite <- Hsl; apply Hok|].
    rewrite Hsl in *. rewrite (assoc_live_found l1 s l2 key w); auto. discriminate.
  - destruct Hspec as (l1 & l2 & Hsl & -> & H1 & H2).
    assert (Hni : ~ In key (keys_of (a_slots a))) by (rewrite Hsl; now apply not_inserted_notin).
    destruct (fx_insert_record_ok n a l1 l2 key (PV v) H Hsl) as (n' & A & B & C & D).
    { rewrite Hin. reflexivity. }
    { apply fm_room; auto. }
    rewrite A. do 3 eexists. split; [reflexivity|]. split; [eauto|].
    right. split; auto. split; [now apply assoc_live_notin|]. apply leaf_upd_insert; auto.
Qed.

Lemma fm_update n a key v : frep n a -> a_inner a = false -> leaf_ok (a_slots a) ->
  exists rc n' a', fx_update n key v = Some (rc, n') /\ frep n' a' /\
    ((rc = kSuccess /\ assoc key (live (a_slots a)) <> None /\
      leaf_upd a a' [] (upsert key v (live (a_slots a)))) \/
     (rc = kKeyNotExist /\ n' = n /\ a' = a /\ assoc key (live (a_slots a)) = None)).
Proof.
  intros H Hin Hok. unfold fx_update.
  destruct (frep_leaf_search n a key H Hin Hok) as (rc & pos & Hs & Hrc & Hspec). rewrite Hs.
  destruct Hrc as [-> | ->].
  - destruct Hspec as (l1 & s & l2 & Hsl & -> & Hk & Hd).
    destruct (fx_overwrite_ok n a l1 s l2 (PV v) H Hsl) as (n' & A & B & C & D).
    { rewrite Hin. reflexivity. }
    rewrite A. do 3 eexists. split; [reflexivity|]. split; [eauto|].
    left. split; auto. split; [|eapply leaf_upd_replace; eauto].
    destruct (fx_search_pay l1 s l2) as [w Hw]; [rewrite <- Hsl; apply Hok|].
    rewrite Hsl in *. rewrite (assoc_live_found l1 s l2 key w); auto. discriminate.
  - destruct Hspec as (l1 & l2 & Hsl & -> & H1 & H2).
    do 3 eexists. split; [reflexivity|]. split; [eauto|]. right. split; auto. split; auto. split; auto.
    apply assoc_live_notin. rewrite Hsl. now apply not_inserted_notin.
Qed.

Lemma fm_delete n a key : frep n a -> a_inner a = false -> leaf_ok (a_slots a) ->
  exists rc n' a', fx_del n key = Some (rc, n') /\ frep n' a' /\
    ((rc = kSuccess /\ assoc key (live (a_slots a)) <> None /\
      leaf_upd a a' [] (remove_key key (live (a_slots a)))) \/
     (rc = kKeyNotExist /\ n' = n /\ a' = a /\ assoc key (live (a_slots a)) = None)).
Proof.
  intros H Hin Hok. unfold fx_del.
  destruct (frep_leaf_search n a key H Hin Hok) as (rc & pos & Hs & Hrc & Hspec). rewrite Hs.
  destruct Hrc as [-> | ->].
  - destruct Hspec as (l1 & s & l2 & Hsl & -> & Hk & Hd).
    destruct (fx_remove_ok n a l1 s l2 H Hsl) as (n' & A & B & C & D).
    rewrite A. do 3 eexists. split; [reflexivity|]. split; [eauto|].
    left. split; auto. split; [|eapply leaf_upd_remove; eauto].
    destruct (fx_search_pay l1 s l2) as [w Hw]; [rewrite <- Hsl; apply Hok|].
    rewrite Hsl in *. rewrite (assoc_live_found l1 s l2 key w); auto. discriminate.
  - destruct Hspec as (l1 & l2 & Hsl & -> & H1 & H2).
    do 3 eexists. split; [reflexivity|]. split; [eauto|]. right. split; auto. split; auto. split; auto.
    apply assoc_live_notin. rewrite Hsl. now apply not_inserted_notin.
Qed.

Lemma fm_split n a ra : frep n a -> body_ok (a_inner a) (a_slots a) -> fx_splittable n ->
  exists l' r' sep s1 s2 lw1 lw2, fx_split_ml n ra (fx_new (a_inner a)) = Some (l', r') /\
    frep l' (ANode (a_inner a) (a_removed a) (if a_inner a then a_next a else Some ra)
                   lw1 (Some sep) s1) /\
    frep r' (ANode (a_inner a) false (if a_inner a then None else a_next a) lw2 (a_high a) s2) /\
    split_spec a sep s1 s2 /\ fx_room l' /\ fx_room r' /\ halves_live s1 s2.
Proof.
  intros H Hok (Hn & Hrd). rewrite (fr_rc _ _ H) in Hn.
  set (i := Nat.div (length (a_slots a)) 2).
  assert (Hi : 1 <= i /\ i < length (a_slots a)).
  { unfold i. split; [apply (Nat.div_le_lower_bound _ 2 1); lia | apply Nat.div_lt; lia]. }
  destruct (skipn_cons_nth (a_slots a) i ltac:(lia)) as (s0 & tl & Hsk & Hnth).
  destruct (body_ok_key _ _ i Hok) as (sep & Hsep).
  { destruct (a_inner a); cbn; lia. }
  { lia. }
  unfold kat in Hsep. rewrite Hnth in Hsep.
  destruct (fx_split_ml_ok n a ra (fx_new (a_inner a)) s0 tl sep H ltac:(lia) Hrd
              eq_refl eq_refl eq_refl eq_refl Hsk Hsep) as (l' & r' & A & B & C & D & E).
  pose proof (fx_split_rooms (a_inner a) (length (a_slots a)) (b2n (fn_low n))
                (b2n (isSome (a_high a))) Hn (b2n_le _) (b2n_le _)) as Hrooms.
  fold i in Hrooms. destruct Hrooms as (R1 & R2).
  { pose proof (frep_fits _ _ H). lia. }
  exists l', r', sep, (firstn i (a_slots a)), (skipn i (a_slots a)), None, (Some sep).
  split; [exact A|]. split; [exact B|]. split; [exact C|].
  split; [apply (split_spec_cut _ _ s0 tl); auto; lia|].
  split; [|split].
  - unfold fx_room, fx_used. rewrite (fr_rc _ _ B), (fr_block _ _ B), (fr_highb _ _ B), (fr_pl _ _ B), D.
    cbn [a_slots a_inner a_high isSome b2n]. fold i. rewrite firstn_length.
    replace (Nat.min i (length (a_slots a))) with i by lia. lia.
  - unfold fx_room, fx_used. rewrite (fr_rc _ _ C), (fr_block _ _ C), (fr_highb _ _ C), (fr_pl _ _ C), E.
    cbn [a_slots a_inner a_high isSome b2n]. fold i. rewrite skipn_length. lia.
  - split; [|split].
    + destruct (a_slots a); cbn in Hi; [lia|]. destruct i; [lia|]. discriminate.
    + rewrite Hsk. discriminate.
    + rewrite firstn_skipn. intros s Hs. pose proof (fr_kind _ _ H) as HK. rewrite Forall_forall in HK.
      apply HK; auto.
Qed.

Lemma fm_merge l al r ar h : frep l al -> frep r ar -> a_inner al = a_inner ar ->
  body_ok (a_inner al) (a_slots al) -> body_ok (a_inner ar) (a_slots ar) ->
  a_high al = Some h ->
  (forall k, In k (keys_of (a_slots al)) -> a_inner al = false -> klt k h) ->
  (forall k, In k (keys_of (a_slots ar)) -> a_inner al = false -> kle h k) ->
  fx_can_merge l r = true ->
  exists l' s lw, fx_merge_ml l r = Some l' /\
    frep l' (ANode (a_inner al) (a_removed al)
                   (if a_inner al then a_next al else a_next ar) lw (a_high ar) s) /\
    merge_spec al ar s /\ fx_room l'.
Proof.
  intros Hl Hr Hin Hokl Hokr Hhl Hk1 Hk2 Hcm.
  unfold fx_can_merge, maxused in Hcm. apply Nat.ltb_lt in Hcm.
  unfold fx_merge_ml. rewrite (fr_inner _ _ Hl).
  destruct (fx_merge_into_ok l al r ar (fn_rc l + b2n (fn_high l) + b2n (fn_low l) - 1)
              (negb (a_inner al)) false Hl Hr Hin) as (l' & A & B & C & D).
  - pose proof (frep_fits _ _ Hl) as Hf. rewrite (fr_rc _ _ Hl), (fr_highb _ _ Hl), Hhl in *.
    cbn [isSome b2n] in *. pose proof fx_hdr_page.
    unfold fk_off.
    replace (S (length (a_slots al) + 1 + b2n (fn_low l) - 1))
      with (length (a_slots al) + b2n (fn_low l) + 1) by lia.
    rewrite (Nat.mul_comm _ ks). lia.
  - lia.
  - rewrite Hhl. cbn. lia.
  - discriminate.
  - rewrite A. rewrite Hhl in D. cbn [isSome b2n] in D.
    exists l', (a_slots al ++ a_slots ar), None. split; [reflexivity|].
    split; [destruct (a_inner al); exact B|]. split.
    + unfold merge_spec. destruct (a_inner al) eqn:E; auto.
      cbn in Hokl. rewrite <- Hin in Hokr. cbn in Hokr.
      split; [eapply leaf_ok_merge; eauto|]. split; [apply live_app|].
      rewrite keys_of_app. apply incl_refl.
    + unfold fx_room. rewrite (fr_pl _ _ B). cbn [a_inner].
      pose proof (plof_max (a_inner al)). pose proof fm_free.
      rewrite Nat.mul_add_distr_l in D. lia.
Qed.

Lemma fm_endpos n a e : frep n a -> a_inner a = false -> leaf_ok (a_slots a) ->
  exists is_end pos, fx_endpos n e = Some (is_end, pos) /\ endpos_spec a e is_end pos.
Proof.
  intros H. apply fxL_endpos_frep. exact H.
Qed.

#[local] Instance fix_ml_laws : MLLaws P fix_ml_ops.
Proof.
  refine {| mrep := (frep : @mn P fix_ml_ops -> _); mvalid := fun _ => True;
            mroom := (fx_room : @mn P fix_ml_ops -> _);
            msplit_ok := (fx_splittable : @mn P fix_ml_ops -> _) |};
    cbn [mn fix_ml_ops mn_inner mn_removed mn_next mn_rc mn_usage mn_new mn_root0 mn_root2 mn_search
         mn_child mn_comphigh mn_highkey mn_endpos mn_recdel mn_key mn_record mn_read mn_reclen
         mn_maxlen mn_need_split mn_need_merge mn_can_merge mn_write mn_insert mn_update mn_delete
         mn_insert_child mn_delete_child mn_split mn_merge mn_mark_removed mn_remove_root after].
  - intros n a H. repeat split; apply H.
  - intros n a H. unfold fx_usage. rewrite (fr_rc _ _ H), (fr_block _ _ H).
    pose proof (frep_slots_fit _ _ H). lia.
  - auto.
  - auto.
  - apply (frep_new false).
  - intros k l r _. destruct (fx_root2_ok k l r) as (n & A & B & C).
    + pose proof fm_cap. lia.
    + exists n, None. split; auto.
  - intros n a key H H1 H2 _.
    destruct (frep_leaf_search n a key H H1 H2) as (rc & pos & A & B & C). eauto.
  - intros n a key H H1 H2 _.
    destruct (frep_inner_search n a key H H1 H2) as (rc & pos & A & B & C). eauto.
  - intros n a i s c H _. apply frep_child; auto.
  - intros n a key H. apply frep_comphigh; auto.
  - intros n a h H. apply frep_highkey; auto.
  - intros n a e H H1 H2 _. apply fm_endpos; auto.
  - intros n a i s H Hin Hok Hi. split; [|split].
    + unfold fx_recdel. pose proof (fr_kind _ _ H) as Hk. rewrite Forall_forall in Hk.
      destruct (Hk s (nth_error_In _ _ Hi)) as (_ & ->). reflexivity.
    + destruct Hok as [Hok _]. rewrite Forall_forall in Hok.
      destruct (Hok s (nth_error_In _ _ Hi)) as (k & v & Hk & _). rewrite Hk.
      apply (frep_key n a i k H). unfold kat. now rewrite Hi.
    + intros k v Hk Hv _. unfold fx_record. rewrite (frep_key n a i k H) by (unfold kat; rewrite Hi; auto).
      rewrite (frep_payload n a i s v H Hi Hv). reflexivity.
  - intros n a key H H1 H2 _. apply fm_read; auto.
  - intros n a H Hok. exists (fx_need_split n (ks + Nat.max plen ptrlen)), None, a.
    split; auto. split; [exact H|]. split.
    { unfold refreshed. destruct (a_inner a) eqn:E; auto. apply leaf_upd_refl. exact Hok. }
    cbn [after]. split; intros E.
    + eapply fm_splittable; eauto.
    + unfold fx_need_split in E. apply Nat.ltb_ge in E. unfold fx_room. rewrite (fr_pl _ _ H).
      pose proof (plof_max (a_inner a)). lia.
  - intros n a key H Hin Hr _. unfold fx_room in Hr. rewrite (fr_pl _ _ H), Hin in Hr. cbn [plof] in Hr.
    unfold fx_need_split. do 2 f_equal. apply Nat.ltb_ge. lia.
  - intros n a H Hok. exists (fx_need_merge n), None, a. split; auto. split; [exact H|]. split; auto.
    unfold refreshed. destruct (a_inner a) eqn:E; auto. apply leaf_upd_refl. exact Hok.
  - intros n a key v H H1 H2 _ Hr. apply fm_put; auto.
  - intros n a key v H H1 H2 _ Hr. apply fm_add; auto.
  - intros n a key v H H1 H2 _. apply fm_update; auto.
  - intros n a key H H1 H2 _. apply fm_delete; auto.
  - intros n a l1 s l2 r sep H Hin Hsl _ Hr.
    destruct (fx_insert_child_at_ok n a l1 s l2 sep r H Hin Hsl) as (n' & A & B & _).
    { pose proof (fm_room n a H Hr) as E. rewrite Hin in E. exact E. }
    exists n'. eexists. split; [exact A|]. split; [exact B|]. split; [apply same_frame_aslots|reflexivity].
  - intros n a l1 s s' l2 H Hin _ Hsl.
    assert (Hsl' : a_slots a = (l1 ++ [s]) ++ s' :: l2) by (rewrite Hsl, <- app_assoc; auto).
    destruct (fx_remove_ok n a (l1 ++ [s]) s' l2 H Hsl') as (n' & A & B & _).
    rewrite app_length in A. cbn in A.
    exists n'. eexists. split; [exact A|]. split; [exact B|]. split; [apply same_frame_aslots|].
    cbn. now rewrite <- app_assoc.
  - intros n a ra H Hok Hs.
    destruct (fm_split n a ra H Hok Hs) as (l' & r' & sep & s1 & s2 & lw1 & lw2 & A & B & C & D & E & E' & E'').
    exists l', r', sep, s1, s2, lw1, lw2. auto 10.
  - intros l al r ar h H1 H2 H3 H4 H5 H6 H7 H8 H9. eapply fm_merge; eauto.
  - intros la n. cbn. auto.
Defined.

End FixMLProofs.
