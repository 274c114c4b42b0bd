(** Node laws the optimistic multi-layer tree needs on top of [MLLaws]: a leaf is asked
    whether the record at hand fits (oml/b_tree.hpp:181-260 with CheckKeyRangeAndLockForWrite),
    and removed leaves lead to their left neighbour. *)
From Coq Require Import List Arith ZArith Bool Sorted Lia.
From Verif Require Import Params Mem Common NodeAbs FixModel FixProofs VarModel VarProofs VarSmo
  SLIface BaseIface FixSL VarSL MLIface FixML VarML.
Import ListNotations.

Class OMLaws (P : Params) (N : MLOps P) (L : MLLaws P N) := {
  mfits : mn -> K -> Prop;     (* a record with this key fits into the leaf *)
  O_check : forall n a key, mrep n a -> a_inner a = false -> leaf_ok (a_slots a) -> mvalid key ->
    exists b o a', mn_need_split n (mn_reclen key) = Some (b, o) /\
      mrep (after n o) a' /\ refreshed a a' /\ (b = false -> o = None -> mfits n key);
  O_write : forall n a key v, mrep n a -> a_inner a = false -> leaf_ok (a_slots a) ->
    mvalid key -> mfits n key ->
    exists n' a', mn_write n key v = Some n' /\ mrep n' a' /\
      leaf_upd a a' [key] (upsert key v (live (a_slots a)));
  O_insert : forall n a key v, mrep n a -> a_inner a = false -> leaf_ok (a_slots a) ->
    mvalid key -> mfits n key ->
    exists rc n' a', mn_insert n key v = Some (rc, n') /\ mrep n' a' /\
      ((rc = kKeyExist /\ n' = n /\ a' = a /\ assoc key (live (a_slots a)) <> None) \/
       (rc = kSuccess /\ assoc key (live (a_slots a)) = None /\
        leaf_upd a a' [key] (upsert key v (live (a_slots a)))));
  O_next : forall la n, mn_inner n = false -> mn_next (mn_mark_removed la n) = Some la;
  O_mark : forall la n a, mrep n a -> a_inner a = false ->
    exists a', mrep (mn_mark_removed la n) a' /\ a_inner a' = false /\ a_slots a' = a_slots a;
  O_inner : forall la n, mn_inner (mn_mark_removed la n) = mn_inner n;
  O_inner_root : forall n, mn_inner (mn_remove_root n) = mn_inner n;
}.

Section FixO.
Context {P : Params} {O : OrdLaws P} {F : FixSizes P} {G : FixMLGood P}.
#[local] Existing Instance fix_ml_laws.

#[local] Instance fix_o_laws : OMLaws P fix_ml_ops fix_ml_laws.
Proof.
  refine {| mfits := (fun n _ => hdr + fx_used n + ks + plen <= page : Prop) : @mn P fix_ml_ops -> K -> Prop |};
    cbn [mn fix_ml_ops mn_inner mn_removed mn_next mn_reclen mn_need_split mn_write mn_insert
         mn_mark_removed mn_remove_root after mrep mvalid fix_ml_laws].
  - intros n a key H Hin Hok _. exists (fx_need_split n (ks + plen)), None, a.
    split; auto. split; [exact H|]. split.
    { unfold refreshed. rewrite Hin. apply leaf_upd_refl. exact Hok. }
    intros E _. unfold fx_need_split in E. apply Nat.ltb_ge in E. pose proof fx_hdr_page. lia.
  - intros n a key v H Hin Hok _ Hroom. unfold fx_put.
    destruct (frep_leaf_search n a key H Hin Hok) as (rc & pos & Hs & Hrc & Hspec). rewrite Hs.
    destruct Hrc as [-> | ->].
    + destruct Hspec as (l1 & s & l2 & Hsl & -> & Hk & Hd).
      destruct (fx_overwrite_ok n a l1 s l2 (PV v) H Hsl) as (n' & A & B & C & D).
      { rewrite Hin. reflexivity. }
      rewrite A. do 2 eexists. split; [reflexivity|]. split; [eauto|]. eapply leaf_upd_replace; eauto.
    + destruct Hspec as (l1 & l2 & Hsl & -> & H1 & H2).
      destruct (fx_insert_record_ok n a l1 l2 key (PV v) H Hsl) as (n' & A & B & C & D).
      { rewrite Hin. reflexivity. }
      { rewrite Hin. exact Hroom. }
      rewrite A. do 2 eexists. split; [reflexivity|]. split; [eauto|]. apply leaf_upd_insert; auto.
  - intros n a key v H Hin Hok _ Hroom. unfold fx_add.
    destruct (frep_leaf_search n a key H Hin Hok) as (rc & pos & Hs & Hrc & Hspec). rewrite Hs.
    destruct Hrc as [-> | ->].
    + destruct Hspec as (l1 & s & l2 & Hsl & -> & Hk & Hd).
      do 3 eexists. split; [reflexivity|]. split; [eauto|]. left. split; auto. split; auto. split; auto.
      destruct (fx_search_pay l1 s l2) as [w Hw]; [rewrite <- Hsl; apply Hok|].
      rewrite Hsl in *. rewrite (assoc_live_found l1 s l2 key w); auto. discriminate.
    + destruct Hspec as (l1 & l2 & Hsl & -> & H1 & H2).
      assert (Hni : ~ In key (keys_of (a_slots a))) by (rewrite Hsl; now apply not_inserted_notin).
      destruct (fx_insert_record_ok n a l1 l2 key (PV v) H Hsl) as (n' & A & B & C & D).
      { rewrite Hin. reflexivity. }
      { rewrite Hin. exact Hroom. }
      rewrite A. do 3 eexists. split; [reflexivity|]. split; [eauto|].
      right. split; auto. split; [now apply assoc_live_notin|]. apply leaf_upd_insert; auto.
  - intros la n H. cbn. now rewrite H.
  - intros la n a H Hin. exists (ANode (a_inner a) true (Some la) (a_low a) (a_high a) (a_slots a)).
    split; [|auto]. unfold fx_mark_removed. rewrite (fr_inner _ _ H), Hin. destruct H. rewrite Hin in *.
    split; cbn; auto.
  - reflexivity.
  - reflexivity.
Defined.
End FixO.

Section VarO.
Context {P : Params} {O : OrdLaws P} {F : VarSizes P} {G : VarGood P} {GM : VarMLGood P}.
#[local] Existing Instance var_ml_laws.

Definition vfits (n : vnode) (key : K) : Prop :=
  hdr + metalen * (vn_rc n + 1) + vn_block n + klen key + plen <= page.

#[local] Instance var_o_laws : OMLaws P var_ml_ops var_ml_laws.
Proof.
  refine {| mfits := vfits : @mn P var_ml_ops -> K -> Prop |};
    cbn [mn var_ml_ops mn_inner mn_removed mn_next mn_reclen mn_need_split mn_write mn_insert
         mn_mark_removed mn_remove_root after mrep mvalid var_ml_laws].
  - intros n a key (L & dead & H) Hin Hok Hkey. unfold vx_ask_split.
    assert (Hb : body_ok (a_inner a) (a_slots a)) by (rewrite Hin; exact Hok).
    destruct (Nat.leb_spec (metalen * (vn_rc n + 1) + vn_block n + (klen key + plen)) (page - hdr)) as [E|E].
    + exists false, None, a. split; auto. split; [exists L, dead; exact H|]. split; [now apply refreshed_refl|].
      intros _ _. unfold vfits. pose proof vs_hdr_page. lia.
    + destruct (Nat.ltb_spec vmaxused (metalen * (vn_rc n + 1) + vn_block n + (klen key + plen) - vn_deleted n)) as [E2|E2].
      * exists true, None, a. split; auto. split; [exists L, dead; exact H|]. split; [now apply refreshed_refl|].
        discriminate.
      * destruct (vx_cleanup_ok _ _ _ _ H) as (n' & L' & E1 & R & B). rewrite E1.
        exists false, (Some n'), (aslots a (filter s_live (a_slots a))). split; auto.
        split; [exists L', 0; exact R|]. split; [now apply refreshed_filter|]. discriminate.
  - intros n a key v (L & dead & H) Hin Hok Hkey Hroom. unfold vx_put. unfold vfits in Hroom.
    destruct (v_leaf_search _ _ _ _ H key Hin Hok) as (rc & pos & Hs & Hspec). rewrite Hs.
    assert (Hpk : pay_kind (a_inner a) (PV v)) by (rewrite Hin; reflexivity).
    destruct rc; cbn in Hspec; try contradiction.
    + destruct Hspec as (l1 & l2 & Hsl & -> & H1 & H2).
      destruct (vx_insert_at_ok n a L dead l1 l2 key (PV v) H Hsl Hpk Hkey) as (n' & L' & A & B).
      { cbn [paylen]. lia. }
      rewrite A. do 2 eexists. split; [reflexivity|]. split; [eexists; eexists; exact B|].
      apply leaf_upd_insert; auto.
    + destruct Hspec as (l1 & s & l2 & Hsl & -> & Hk & Hd).
      destruct (vx_reuse_ok n a L dead l1 s l2 (PV v) H Hsl Hd Hpk) as (n' & L' & A & B).
      rewrite A. do 2 eexists. split; [reflexivity|]. split; [eexists; eexists; exact B|].
      eapply leaf_upd_replace; eauto.
    + destruct Hspec as (l1 & s & l2 & Hsl & -> & Hk & Hd).
      destruct (vx_overwrite_ok n a L dead l1 s l2 (PV v) H Hsl Hpk) as (n' & L' & A & B).
      rewrite A. do 2 eexists. split; [reflexivity|]. split; [eexists; eexists; exact B|].
      rewrite Hd. eapply leaf_upd_replace; eauto.
  - intros n a key v (L & dead & H) Hin Hok Hkey Hroom. unfold vx_add. unfold vfits in Hroom.
    destruct (v_leaf_search _ _ _ _ H key Hin Hok) as (rc & pos & Hs & Hspec). rewrite Hs.
    assert (Hpk : pay_kind (a_inner a) (PV v)) by (rewrite Hin; reflexivity).
    destruct rc; cbn in Hspec; try contradiction.
    + destruct Hspec as (l1 & l2 & Hsl & -> & H1 & H2).
      destruct (vx_insert_at_ok n a L dead l1 l2 key (PV v) H Hsl Hpk Hkey) as (n' & L' & A & B).
      { cbn [paylen]. lia. }
      rewrite A. do 3 eexists. split; [reflexivity|]. split; [eexists; eexists; exact B|].
      right. split; auto. split; [|apply leaf_upd_insert; auto].
      apply assoc_live_notin. rewrite Hsl. now apply not_inserted_notin.
    + destruct Hspec as (l1 & s & l2 & Hsl & -> & Hk & Hd).
      destruct (vx_reuse_ok n a L dead l1 s l2 (PV v) H Hsl Hd Hpk) as (n' & L' & A & B).
      rewrite A. do 3 eexists. split; [reflexivity|]. split; [eexists; eexists; exact B|].
      right. split; auto. split; [|eapply leaf_upd_replace; eauto].
      rewrite Hsl. apply (assoc_live_deleted l1 s l2 key); auto. now rewrite <- Hsl.
    + destruct Hspec as (l1 & s & l2 & Hsl & -> & Hk & Hd).
      do 3 eexists. split; [reflexivity|]. split; [exists L, dead; exact H|]. left.
      split; auto. split; auto. split; auto.
      destruct (fx_search_pay l1 s l2) as [w Hw]; [rewrite <- Hsl; apply Hok|].
      rewrite Hsl in *. rewrite (assoc_live_found l1 s l2 key w); auto. discriminate.
  - intros la n H. cbn. now rewrite H.
  - intros la n a (L & dead & H) Hin. exists (ANode (a_inner a) true (Some la) (a_low a) (a_high a) (a_slots a)).
    split; [|auto]. exists L, dead. unfold vx_mark_removed. rewrite (v_inner _ _ _ _ H), Hin. destruct H.
    rewrite Hin in *. split; cbn; auto.
  - reflexivity.
  - reflexivity.
Defined.
End VarO.
