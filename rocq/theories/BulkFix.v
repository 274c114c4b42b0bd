(** Bulkload with fixed-length nodes: the node functions obey [BulkLaws]. *)
From Coq Require Import List Arith ZArith Bool Lia Sorted Permutation.
From Verif Require Import Params Mem Common Spec NodeAbs TreeState Levels TreeHeap
  FixModel FixProofs FixSL BulkModel BulkProofs.
Import ListNotations.

(** Page configurations in which a bulkloaded node (filled to nine tenths) holds at least
    two records besides its fence keys. *)
Class FixBulkGood (P : Params) := {
  fb_cap : hdr + 2 * (ks + Nat.max plen ptrlen) + 2 * ks <= bulkcap;
  fb_inner : 1 <= fx_inner_cap;
}.

Section BulkFix.
Context {P : Params} {O : OrdLaws P} {F : FixSizes P} {G : FixBulkGood P}.

Lemma bulkcap_page : bulkcap <= page.
Proof. unfold bulkcap. apply Nat.div_le_upper_bound; lia. Qed.

Lemma epay_kind inner e : epay inner e <-> pay_kind inner (snd e).
Proof. unfold epay, pay_kind. destruct (snd e); tauto. Qed.

Lemma fx_append_ok m inner ld k p : fslots m inner ld -> pay_kind inner p ->
  hdr + (ks + plof inner) * (length ld + 1) <= page ->
  exists m', (let? (m1, off') := fx_setpayload m (plof inner) (page - plof inner * length ld) p in
              let? m2 := fx_setkey m1 (length ld) k in Some (m2, off')) =
             Some (m', page - plof inner * (length ld + 1)) /\
    fslots m' inner (ld ++ [Slot (Some k) p false]).
Proof.
  intros Hd Hp Hfit. set (pl := plof inner) in *.
  assert (E4 : (length ld + 1) * pl = pl * length ld + pl) by lia.
  assert (E5 : S (length ld) * ks = ks * length ld + ks) by lia.
  assert (Hfit' : hdr + ks * length ld + ks + pl * length ld + pl <= page) by lia.
  assert (Hpl : paylen p = pl) by (apply pay_kind_len; auto).
  unfold fx_setpayload, fx_wrpay. rewrite Hpl, Nat.eqb_refl.
  assert (Ho : page - pl * length ld - pl = fp_off pl (length ld)) by (unfold fp_off; lia).
  rewrite Ho. rewrite mwr_ok; [|unfold fp_off; lia|rewrite length_enc_pay, Hpl; unfold fp_off; lia].
  set (m1 := wr m (fp_off pl (length ld)) (enc_pay p)).
  rewrite fx_setkey_ok by (unfold fk_off; lia).
  set (m2 := wr m1 (fk_off (length ld)) (enc_key k)).
  exists m2. split; [f_equal; f_equal; unfold fp_off; lia|].
  constructor.
  - intros j y x Hj Hk. pose proof (nth_error_lt _ _ _ Hj) as Hjl. rewrite app_length in Hjl. cbn in Hjl.
    unfold m2. rewrite keyb_wr by (rewrite length_enc_key; apply fx_klen).
    destruct (j =? length ld) eqn:E.
    + apply Nat.eqb_eq in E. subst j. rewrite nth_error_mid in Hj. inv Hj. cbn in Hk. inv Hk. reflexivity.
    + apply Nat.eqb_neq in E. rewrite nth_error_app1 in Hj by lia.
      unfold m1. rewrite keyb_wr_far; [eapply fs_keys; eauto|].
      unfold fk_off, fp_off. assert (S j * ks <= S (length ld) * ks) by (apply Nat.mul_le_mono_r; lia). lia.
  - intros j y Hj. fold pl. pose proof (nth_error_lt _ _ _ Hj) as Hjl. rewrite app_length in Hjl. cbn in Hjl.
    assert (E6 : (j + 1) * pl <= (length ld + 1) * pl) by (apply Nat.mul_le_mono_r; lia).
    assert (Hfar : payb m2 pl j = payb m1 pl j).
    { unfold m2. apply payb_wr_far. rewrite length_enc_key, fx_klen. unfold fk_off, fp_off. lia. }
    rewrite Hfar. unfold m1. rewrite payb_wr; [|rewrite length_enc_pay; exact Hpl|lia|lia].
    destruct (j =? length ld) eqn:E.
    + apply Nat.eqb_eq in E. subst j. rewrite nth_error_mid in Hj. inv Hj. reflexivity.
    + apply Nat.eqb_neq in E. rewrite nth_error_app1 in Hj by lia. eapply (fs_pays _ _ _ Hd); eauto.
Qed.

Lemma fx_bulk_loop_ok inner : forall es m done,
  Forall (epay inner) es -> fslots m inner (map slot_of done) ->
  exists m' l1 l2,
    fx_bulk_loop m (plof inner) (page - plof inner * length done)
      (hdr + (ks + plof inner) * length done) (length done) es =
    Some (m', page - plof inner * (length done + length l1), length done + length l1, l2) /\
    es = l1 ++ l2 /\ fslots m' inner (map slot_of (done ++ l1)) /\
    (l1 <> [] -> hdr + (ks + plof inner) * (length done + length l1) + 2 * ks <= bulkcap) /\
    (l2 <> [] -> bulkcap < hdr + (ks + plof inner) * (length done + length l1 + 1) + 2 * ks).
Proof.
  induction es as [|[k p] es IH]; intros m done Hp Hd.
  - exists m, [], []. cbn [fx_bulk_loop length app]. rewrite !Nat.add_0_r, app_nil_r.
    split; [reflexivity|]. split; [reflexivity|]. split; [exact Hd|]. split; congruence.
  - apply Forall_cons_iff in Hp as [Hp1 Hp]. cbn [fx_bulk_loop].
    destruct (bulkcap <? hdr + (ks + plof inner) * length done + (ks + plof inner) + 2 * ks) eqn:Ec.
    + apply Nat.ltb_lt in Ec. exists m, [], ((k, p) :: es). cbn [length app].
      rewrite !Nat.add_0_r, app_nil_r. split; [reflexivity|]. split; [reflexivity|]. split; [exact Hd|].
      split; [congruence|]. intros _. rewrite Nat.mul_add_distr_l, Nat.mul_1_r. lia.
    + apply Nat.ltb_ge in Ec.
      assert (Hfit : hdr + (ks + plof inner) * (length done + 1) + 2 * ks <= bulkcap)
        by (rewrite Nat.mul_add_distr_l, Nat.mul_1_r; lia).
      pose proof bulkcap_page as Hbp.
      destruct (fx_append_ok m inner (map slot_of done) k p Hd) as (m' & E & Hd').
      { now apply epay_kind in Hp1. } { rewrite map_length. lia. }
      rewrite map_length in E.
      destruct (fx_setpayload m (plof inner) (page - plof inner * length done) p) as [[m1 off']|]; [|discriminate].
      destruct (fx_setkey m1 (length done) k) as [m2|] eqn:E2; [|discriminate]. injection E as <- ->.
      destruct (IH m2 (done ++ [(k, p)]) Hp) as (m' & l1 & l2 & E' & Ees & Hd'' & H1 & H2).
      { rewrite map_app. exact Hd'. }
      rewrite app_length in E', H1, H2. cbn [length] in E', H1, H2.
      replace (hdr + (ks + plof inner) * length done + (ks + plof inner))
        with (hdr + (ks + plof inner) * (length done + 1)) by lia.
      exists m', ((k, p) :: l1), l2. cbn [length app]. rewrite E'.
      replace (length done + S (length l1)) with (length done + 1 + length l1) by lia.
      split; [reflexivity|]. split; [now rewrite Ees|]. split; [now rewrite <- app_assoc in Hd''|].
      split; [|exact H2]. intros _. destruct l1 as [|x l1]; [rewrite Nat.add_0_r; exact Hfit|].
      apply H1. discriminate.
Qed.

Definition fx_bulk_room (n : fnode) : Prop := hdr + ks * (fn_rc n + 2) + fn_block n <= page.

Lemma fx_bulk_ok inner e es : Forall (epay inner) (e :: es) ->
  exists d l1 l2, fx_bulk inner (e :: es) = Some (fst e, d, l2) /\ e :: es = l1 ++ l2 /\
    l1 <> [] /\ (2 <= length (e :: es) -> 2 <= length l1) /\
    fxrep d (ANode inner false None (Some (fst e)) None (map slot_of l1)) /\ fx_bulk_room d.
Proof.
  intros Hp. unfold fx_bulk.
  destruct (fx_bulk_loop_ok inner (e :: es) mem_undef [] Hp) as (m & l1 & l2 & E & Ees & Hs & H1 & H2).
  { constructor; intros [|i] s; cbn; discriminate. }
  cbn [length app] in *. rewrite !Nat.mul_0_r, !Nat.add_0_r, Nat.sub_0_r in E. cbn [Nat.add] in *.
  fold (plof inner). rewrite E.
  pose proof (plof_max inner) as Hmax. pose proof fb_cap as Hcap. pose proof bulkcap_page as Hbp.
  assert (Hl2 : l2 <> [] -> 2 <= length l1).
  { intros Hne. specialize (H2 Hne). destruct (Nat.le_gt_cases 2 (length l1)) as [|Hlt]; auto. exfalso.
    assert ((ks + plof inner) * (length l1 + 1) <= (ks + Nat.max plen ptrlen) * 2) by (apply Nat.mul_le_mono; lia). lia. }
  assert (Hl1 : 1 <= length l1).
  { destruct l2; [|specialize (Hl2 ltac:(discriminate)); lia]. rewrite app_nil_r in Ees. rewrite <- Ees. cbn. lia. }
  destruct l1 as [|e1 l1]; [cbn in Hl1; lia|]. assert (e1 = e) as -> by (cbn in Ees; congruence).
  specialize (H1 ltac:(discriminate)). set (N := length (e :: l1)) in *.
  assert (Hfit : hdr + ks * N + plof inner * N + 2 * ks <= page) by lia.
  assert (Hdec : page - (page - plof inner * N) = plof inner * N) by lia.
  assert (Hk1 : S N * ks = ks * N + ks) by lia.
  assert (Hplp := plof_pos inner). assert (Hksp := fx_ks_pos).
  assert (HkN : ks <= ks * N) by (rewrite <- (Nat.mul_1_r ks) at 1; apply Nat.mul_le_mono_l; lia).
  rewrite fx_cpkey_ok by (unfold fk_off; lia).
  set (m1 := mv m (fk_off N) m (fk_off 0) ks).
  assert (Hkv : forall i, keyb m1 i = if i =? N then keyb m 0 else keyb m i) by (intros i; apply keyb_cp).
  assert (Hk0 : keyb m 0 = enc_key (fst e)) by (apply (fs_keys _ _ _ Hs 0 (slot_of e)); reflexivity).
  rewrite Hdec. rewrite (fx_key_ok _ 0 (fst e)).
  2:{ unfold fk_off. lia. }
  2:{ cbn [fn_mem]. rewrite Hkv. destruct (0 =? N) eqn:E0; exact Hk0. }
  eexists _, (e :: l1), l2. split; [reflexivity|]. split; [exact Ees|]. split; [discriminate|].
  split.
  { intros H2'. destruct l2; [|apply Hl2; discriminate]. rewrite app_nil_r in Ees. rewrite <- Ees. exact H2'. }
  assert (Hl : length (map slot_of (e :: l1)) = N) by apply map_length.
  split; [|unfold fx_bulk_room; cbn [fn_rc fn_block]; lia].
  split; [|reflexivity].
  constructor; cbn [fn_inner fn_removed fn_next fn_rc fn_pl fn_block fn_mem fn_high fn_low
                    a_inner a_removed a_next a_slots a_high a_low isSome].
  - reflexivity.
  - reflexivity.
  - reflexivity.
  - now rewrite Hl.
  - reflexivity.
  - now rewrite Hl.
  - unfold fx_used. cbn [fn_rc fn_low fn_high fn_block b2n]. lia.
  - constructor.
    + intros i s k Hi Hk. pose proof (nth_error_lt _ _ _ Hi) as Hil. rewrite Hkv.
      destruct (i =? N) eqn:E1; [apply Nat.eqb_eq in E1; lia|]. eapply fs_keys; eauto.
    + intros i s Hi. rewrite <- (fs_pays _ _ _ Hs i s Hi). unfold m1. apply payb_mv_far.
      pose proof (nth_error_lt _ _ _ Hi) as Hil. left.
      assert ((i + 1) * plof inner <= N * plof inner) by (apply Nat.mul_le_mono_r; lia).
      unfold fk_off, fp_off. lia.
  - apply Forall_forall. intros s Hs'. apply in_map_iff in Hs' as (x & <- & Hx). split; [|reflexivity].
    apply epay_kind. rewrite Forall_forall in Hp. apply Hp. rewrite Ees. apply in_or_app. now left.
  - reflexivity.
  - discriminate.
  - intros k E0. injection E0 as <-. split; [reflexivity|]. rewrite Hl. cbn [b2n]. rewrite Nat.add_0_r.
    rewrite Hkv, Nat.eqb_refl. exact Hk0.
Qed.

Lemma fx_link_ok sl l al ra r ar k : frep l al -> fn_low l = true -> fx_bulk_room l -> a_high al = None ->
  a_low al <> None -> frep r ar -> kat (a_slots ar) 0 = Some k ->
  exists l', fx_link sl l ra r = Some l' /\ fn_low l' = true /\
    frep l' (ANode (a_inner al) (a_removed al) (if sl || negb (a_inner al) then Some ra else a_next al)
                   (a_low al) (Some k) (a_slots al)).
Proof.
  intros H Hlow Hroom Hh Hl Hr Hk. unfold fx_link, fx_bulk_room in *.
  pose proof (fr_rc _ _ H) as Hrc. pose proof (fr_block _ _ H) as Hb. set (N := length (a_slots al)) in *.
  rewrite Hrc in *.
  assert (Hk1 : S (N + 1) * ks = ks * (N + 2)) by lia. assert (Hk2 : S N * ks <= ks * (N + 2)) by lia.
  assert (H0 : fk_off 1 <= page).
  { apply (frep_key_inpage r ar 0 Hr). assert (0 < length (a_slots ar)); [|lia].
    unfold kat in Hk. destruct (a_slots ar); [discriminate|cbn; lia]. }
  rewrite fx_cpkey_ok by (unfold fk_off; lia).
  set (m1 := mv (fn_mem l) (fk_off (N + 1)) (fn_mem l) (fk_off N) ks).
  rewrite fx_cpkey_ok by (auto; unfold fk_off; lia).
  set (m2 := mv m1 (fk_off N) (fn_mem r) (fk_off 0) ks).
  assert (Hk0 : keyb (fn_mem r) 0 = enc_key k).
  { unfold kat in Hk. destruct (nth_error (a_slots ar) 0) as [s|] eqn:Es; [|discriminate].
    eapply (fs_keys _ _ _ (fr_slots _ _ Hr)); eauto. }
  assert (Hkv : forall i, keyb m2 i = if i =? N then enc_key k else if i =? N + 1 then keyb (fn_mem l) N else keyb (fn_mem l) i).
  { intros i. unfold m2. rewrite keyb_cp. destruct (i =? N); [exact Hk0|]. unfold m1. apply keyb_cp. }
  eexists. split; [reflexivity|]. split; [exact Hlow|].
  constructor; cbn [fn_inner fn_removed fn_next fn_rc fn_pl fn_block fn_mem fn_high fn_low
                    a_inner a_removed a_next a_slots a_high a_low isSome].
  - apply H.
  - apply H.
  - rewrite (fr_inner _ _ H), (fr_next _ _ H). reflexivity.
  - reflexivity.
  - apply H.
  - exact Hb.
  - unfold fx_used. cbn [fn_rc fn_low fn_high fn_block b2n]. rewrite Hlow. cbn [b2n]. lia.
  - constructor.
    + intros i s x Hi Hx. pose proof (nth_error_lt _ _ _ Hi) as Hil. fold N in Hil. rewrite Hkv.
      destruct (i =? N) eqn:E1; [apply Nat.eqb_eq in E1; lia|].
      destruct (i =? N + 1) eqn:E2; [apply Nat.eqb_eq in E2; lia|].
      eapply (fs_keys _ _ _ (fr_slots _ _ H)); eauto.
    + intros i s Hi. rewrite <- (fs_pays _ _ _ (fr_slots _ _ H) i s Hi).
      pose proof (nth_error_lt _ _ _ Hi) as Hil. fold N in Hil. pose proof (plof_pos (a_inner al)).
      assert ((i + 1) * plof (a_inner al) <= N * plof (a_inner al)) by (apply Nat.mul_le_mono_r; lia).
      unfold m2. rewrite payb_mv_far by (left; unfold fk_off, fp_off; lia).
      unfold m1. apply payb_mv_far. left. unfold fk_off, fp_off. lia.
  - apply H.
  - reflexivity.
  - intros h E. injection E as <-. rewrite Hkv. fold N. now rewrite Nat.eqb_refl.
  - intros x E. split; [exact Hlow|]. rewrite Hkv. fold N. cbn [b2n].
    replace (N + 1 =? N) with false by (symmetry; apply Nat.eqb_neq; lia). rewrite Nat.eqb_refl.
    destruct (fr_low _ _ H x E) as (_ & E2). rewrite Hh in E2. cbn [isSome b2n] in E2. fold N in E2.
    now rewrite Nat.add_0_r in E2.
Qed.

Lemma fx_unlow_ok d a : frep d a ->
  frep (fx_unlow d) (ANode (a_inner a) (a_removed a) (a_next a) None (a_high a) (a_slots a)).
Proof.
  intros H. constructor; cbn; try apply H.
  - pose proof (fr_fits _ _ H) as Hf. unfold fx_used in *. cbn [fx_unlow fn_rc fn_low fn_high fn_block b2n].
    assert (ks * (fn_rc d + 0 + b2n (fn_high d)) <= ks * (fn_rc d + b2n (fn_low d) + b2n (fn_high d)))
      by (apply Nat.mul_le_mono_l; lia). lia.
  - discriminate.
Qed.

#[local] Instance fix_bulk_laws_sl : BulkLaws P fnode (fix_bulk true) true fxrep (fun _ => True).
Proof.
  refine {| bk_room := fx_bulk_room |}; cbn [fix_bulk bk_fill bk_link bk_inner bk_rc bk_child bk_unlow bk_cap].
  - intros inner e es Hp _. destruct (fx_bulk_ok inner e es Hp) as (d & l1 & l2 & A & B & C & D & E & E').
    exists d, l1, l2. split; [exact A|]. split; [exact B|]. split; [exact C|]. split; [auto|]. split; [exact E|exact E'].
  - intros l al ra r ar k [H Hlow] Hr Hh Hl [H' _] _ Hk _. destruct (a_low al) eqn:El; [|congruence]. cbn in Hlow.
    destruct (fx_link_ok true l al ra r ar k H Hlow Hr Hh) as (l' & A & B & C); auto; [congruence|].
    exists l'. split; [exact A|]. rewrite El in C. split; [exact C|exact B].
  - intros d a [H _]. split; apply H.
  - intros d a i s c [H _] _. apply frep_child; auto.
  - intros d a [H _] _. split; [now apply fx_unlow_ok|reflexivity].
  - apply fb_inner.
Defined.

#[local] Instance fix_bulk_laws_ml : BulkLaws P fnode (fix_bulk false) false frep (fun _ => True).
Proof.
  refine {| bk_room := fx_bulk_room |}; cbn [fix_bulk bk_fill bk_link bk_inner bk_rc bk_child bk_unlow bk_cap].
  - intros inner e es Hp _. destruct (fx_bulk_ok inner e es Hp) as (d & l1 & l2 & A & B & C & D & [E _] & E').
    exists d, l1, l2. split; [exact A|]. split; [exact B|]. split; [exact C|]. split; [auto|]. split; [exact E|exact E'].
  - intros l al ra r ar k H Hr Hh Hl H' _ Hk _.
    assert (Hlow : fn_low l = true).
    { destruct (a_low al) as [x|] eqn:El; [|congruence]. apply (fr_low _ _ H x El). }
    destruct (fx_link_ok false l al ra r ar k H Hlow Hr Hh) as (l' & A & B & C); auto.
    exists l'. auto.
  - intros d a H. split; apply H.
  - intros d a i s c H _. apply frep_child; auto.
  - intros d a H _. now apply fx_unlow_ok.
  - apply fb_inner.
Defined.

End BulkFix.
