(** Split, merge and new roots of variable-length nodes. *)
From Coq Require Import List Arith ZArith Bool Lia Sorted Permutation.
From Verif Require Import Params Mem Common NodeAbs FixProofs VarModel VarProofs.
Import ListNotations.

Section VarSmo.
Context {P : Params} {O : OrdLaws P} {F : VarSizes P}.

Lemma vkey_rec n a L dead i s off k : vrep' n a L dead -> nth_error L i = Some (s, off) ->
  s_key s = Some k ->
  vkey k /\ rd (vn_mem n) off (klen k) = enc_key k /\ hdr <= off /\ off + klen k <= page.
Proof.
  intros H Hi Hk. destruct (v_data _ _ _ _ H _ _ _ Hi) as [_ [R _]].
  destruct (v_chunk _ _ _ _ H _ _ _ Hi) as [B1 B2]. pose proof (vm_off_hdr (length L)).
  unfold slen in B2. rewrite Hk in B2. cbn [klen_o] in B2.
  split; [|split; [|lia]].
  - apply (v_keys _ _ _ _ H). apply in_keys_of. exists s. split; auto.
    eapply nth_error_In, v_slot'; eauto.
  - auto.
Qed.

Lemma vsrc_app sm i LS1 LS2 : vsrc sm i (LS1 ++ LS2) -> vsrc sm (i + length LS1) LS2.
Proof.
  intros H j s off Hj. replace (i + length LS1 + j) with (i + (length LS1 + j)) by lia. apply H.
  rewrite nth_error_app2 by lia. now replace (length LS1 + j - length LS1) with j by lia.
Qed.

Lemma vx_split_ok ml l a L dead ra vmx :
  vrep' l a L dead ->
  (forall s, In s (a_slots a) -> lsize s <= vmx) ->
  (forall i s, nth_error (a_slots a) (S i) = Some s -> exists k, s_key s = Some k) ->
  hdr + vx_used l / 2 + vmx + 2 * maxkey <= page ->
  0 < vx_used l / 2 ->
  vx_used l / 2 + vmx <= sum lsize (a_slots a) ->
  hdr + sum lsize (a_slots a) - vx_used l / 2 + 2 * maxkey <= page ->
  let link := negb (ml && a_inner a) in
  exists l' r' sep s1 s0 tl L1 L2, vx_split ml l ra (vx_new (a_inner a)) = Some (l', r') /\
    a_slots a = s1 ++ s0 :: tl /\ s1 <> [] /\ s_key s0 = Some sep /\ vkey sep /\
    vrep' l' (ANode (a_inner a) (a_removed a) (if link then Some ra else a_next a) (a_low a) (Some sep)
                (filter s_live s1)) L1 0 /\
    vrep' r' (ANode (a_inner a) false (if link then a_next a else None) (Some sep) (a_high a)
                (filter s_live (s0 :: tl))) L2 0 /\
    vx_used l / 2 <= sum lsize s1 /\ sum lsize s1 < vx_used l / 2 + vmx /\
    vn_block l' = klen_o (a_low a) + klen sep + sum slen (filter s_live s1) /\
    vn_block r' = klen sep + klen_o (a_high a) + sum slen (filter s_live (s0 :: tl)).
Proof.
  intros H Hmx Hkeys Hsp1 Hpos Htot Hsp2 link. unfold vx_split.
  change (metalen * vn_rc l + vn_block l - vn_deleted l) with (vx_used l).
  set (half := vx_used l / 2) in *.
  rewrite (v_inner _ _ _ _ H), (v_next _ _ _ _ H), (v_removed _ _ _ _ H).
  pose proof (v_slots _ _ _ _ H) as Hsl.
  assert (Hlow : klen_o (a_low a) <= maxkey).
  { destruct (a_low a) as [k|] eqn:E; cbn; [apply (v_lowv _ _ _ _ H k E)|lia]. }
  assert (Hhigh : klen_o (a_high a) <= maxkey).
  { destruct (a_high a) as [k|] eqn:E; cbn; [apply (v_highv _ _ _ _ H k E)|lia]. }
  destruct (vx_copylow_ok mem_undef _ _ _ _ H) as (t1 & E1 & K1 & Y1 & Z1). rewrite E1.
  set (o1 := page - klen_o (a_low a)) in *.
  assert (Ho1 : o1 + klen_o (a_low a) = page) by (unfold o1; lia). clearbody o1.
  destruct (vx_split_loop_ok (vn_mem l) (ochunk (a_low a) (vn_loff l)) half vmx L page t1 [] 0 o1 0)
    as (t2 & L1 & o2 & LS1 & LS2 & E0 & E2 & F1 & F2 & F3 & F4 & F5 & F6 & [D1 D2 D3 D4]).
  { pose proof (v_fit _ _ _ _ H). pose proof vs_meta_pos.
    assert (1 * length L <= metalen * length L) by (apply Nat.mul_le_mono_r; lia). lia. }
  { rewrite <- Hsl. auto. }
  { eapply vrep_vsrc; eauto. }
  { intros i s o Hi. destruct i; discriminate. }
  { rewrite app_nil_r. exact Y1. }
  { lia. }
  { cbn [length]. rewrite vm_off_eq. lia. }
  { rewrite <- Hsl. lia. }
  { lia. }
  cbn [app length Nat.add] in *. rewrite E2.
  assert (Hs12 : a_slots a = map fst LS1 ++ map fst LS2) by (rewrite Hsl, E0; apply map_app).
  rewrite Hs12, sum_app in Htot, Hsp2.
  destruct LS2 as [|[s0 off0] LS2].
  { exfalso. cbn [map] in Htot. rewrite sum_nil in Htot. lia. }
  assert (Hi0 : nth_error L (length LS1) = Some (s0, off0)) by (rewrite E0; apply nth_error_mid).
  assert (exists sep, s_key s0 = Some sep) as [sep Hsep].
  { specialize (F6 ltac:(lia)). destruct LS1 as [|x LS1]; [congruence|]. apply (Hkeys (length LS1)).
    apply (v_slot' _ _ _ _ H _ _ off0). exact Hi0. }
  destruct (vkey_rec _ _ _ _ _ _ _ _ H Hi0 Hsep) as (Vk & Rk & Bk1 & Bk2).
  rewrite (v_meta _ _ _ _ H _ _ _ Hi0). cbn [vmt md_klen].
  assert (Hkl : klen_o (s_key s0) = klen sep) by now rewrite Hsep.
  unfold vx_copykey. cbn [vmt md_off md_klen]. rewrite !Hkl.
  pose proof (vm_off_hdr (length L1)) as Hh.
  assert (Hllen : vm_off (length L1) + klen sep <= o2).
  { assert (Hx : metalen * length L1 + sum slen (filter s_live (map fst LS1)) = sum lsize (map fst LS1)).
    { rewrite <- sum_live, <- F1, map_length. reflexivity. }
    rewrite vm_off_eq. destruct Vk. lia. }
  rewrite mmv_ok by lia. set (t3 := mv t2 _ _ _ _). set (o3 := o2 - klen sep) in *.
  assert (Ho3 : o3 + klen sep = o2) by (unfold o3; lia). clearbody o3.
  assert (Rt3 : rd t3 o3 (klen sep) = enc_key sep).
  { unfold t3. rewrite rd_mv_in by lia. rewrite <- Rk. f_equal. lia. }
  assert (At3 : agree t2 t3 o2 page) by (apply agree_mv; lia).
  assert (At3m : agree t2 t3 hdr (vm_off (length L1))) by (apply agree_mv; lia).
  (* the right node *)
  set (rp := page - klen sep). assert (Hrp : rp + klen sep = page) by (destruct Vk; unfold rp; lia).
  assert (exists r1, (if ml then
      let? m := mmv (vn_mem (vx_new (a_inner a))) rp (vn_mem l) off0 (klen sep) in Some (m, rp)
      else let? m := (if 0 <? klen sep then mmv (vn_mem (vx_new (a_inner a))) rp t3 o3 (klen sep)
                      else Some (vn_mem (vx_new (a_inner a)))) in Some (m, rp)) = Some (r1, rp) /\
      rd r1 rp (klen sep) = enc_key sep) as (r1 & Er1 & Rr1).
  { destruct ml.
    - rewrite mmv_ok by lia. eexists. split; [reflexivity|]. rewrite rd_mv_in by lia. rewrite <- Rk. f_equal. lia.
    - destruct Vk. replace (0 <? klen sep) with true by (symmetry; apply Nat.ltb_lt; lia).
      rewrite mmv_ok by lia. eexists. split; [reflexivity|]. rewrite rd_mv_in by lia. rewrite <- Rt3. f_equal. lia. }
  clearbody rp. cbv zeta. rewrite Er1. 
  assert (Hright : hdr + sum lsize (map fst ((s0, off0) :: LS2)) + klen sep + klen_o (a_high a) <= page).
  { destruct Vk. lia. }
  destruct (vx_copyhigh_ok r1 _ _ _ _ [(rp, klen sep)] rp H) as (r2 & E3 & K2 & Y2 & A2).
  { replace rp with (page - klen sep) by lia. apply layout_cons with (base := page); [apply layout_nil|lia|lia]. }
  { lia. }
  { lia. }
  rewrite E3. set (ro2 := rp - klen_o (a_high a)) in *.
  assert (Hro2 : ro2 + klen_o (a_high a) = rp) by (unfold ro2; lia). clearbody ro2.
  destruct (vx_copyrecs_ok (vn_mem l) (ochunk (a_high a) ro2 ++ [(rp, klen sep)]) ((s0, off0) :: LS2) r2 [] (length LS1) ro2)
    as (r3 & L2 & ro3 & E4 & J1 & J2 & J3 & [B1 B2 B3 B4]).
  { apply (vsrc_app (vn_mem l) 0). rewrite <- E0. eapply vrep_vsrc; eauto. }
  { intros i s o Hi. destruct i; discriminate. }
  { rewrite app_nil_r. exact Y2. }
  { lia. }
  { cbn [length]. rewrite vm_off_eq. lia. }
  cbn [app] in *. change (length (@nil (slot * nat))) with 0 in *.
  replace (vn_rc l - length LS1) with (length ((s0, off0) :: LS2)).
  2:{ rewrite (v_rc _ _ _ _ H), E0, app_length. lia. }
  change (vn_rc (vx_new (a_inner a))) with 0. rewrite E4.
  destruct (vx_reflect_ok (vn_mem l) t3 (length L1) o3 ltac:(lia) ltac:(lia)) as (m & E5 & G1 & G2).
  rewrite E5.
  exists (VNode (a_inner a) (a_removed a) (page - o3) 0 (length L1)
              (if link then Some ra else a_next a) (vn_loff l) (vn_llen l) o3 (klen sep) m).
  exists (VNode (a_inner a) false (page - ro3) 0 (length L2)
              (if link then a_next a else None) rp (klen sep) ro2 (vn_hlen l) r3).
  exists sep, (map fst LS1), s0, (map fst LS2), L1, L2.
  split; [reflexivity|]. split; [exact Hs12|]. split.
  { specialize (F6 ltac:(lia)). intros E. apply map_eq_nil in E. auto. }
  split; auto. split; auto.
  pose proof (v_kind _ _ _ _ H) as Hkind. rewrite Hs12, Forall_app in Hkind. destruct Hkind as [Hkind1 Hkind2].
  pose proof (v_keys _ _ _ _ H) as Hkv. rewrite Hs12, keys_of_app in Hkv.
  cbn [map fst] in J1, J2, Hright.
  assert (Hlen1 : vm_off (length L1) <= o3) by lia.
  rewrite vm_off_eq in Hlen1, J3.
  split; [|split; [|split; [|split; [|split]]]].
  - constructor; cbn [vn_inner vn_removed vn_next vn_rc vn_mem vn_llen vn_loff vn_hlen vn_hoff vn_block vn_deleted
                    a_inner a_removed a_next a_slots a_low a_high]; auto.
    + eapply vdata_agree; [exact D1|exact D2| |].
      * eapply agree_trans; [eapply agree_sub; [exact At3m|apply vm_off_hdr|lia]|exact G1].
      * eapply agree_trans; [exact At3|eapply agree_sub; [exact G2|lia|lia]].
    + apply Forall_filter; auto.
    + intros k Hk. apply Hkv. apply in_or_app. left. now apply keys_filter.
    + apply (v_llen _ _ _ _ H).
    + apply (v_loff _ _ _ _ H).
    + intros k E. rewrite <- (K1 k E). pose proof (Z1 k E) as Z. rewrite E in *. cbn [klen_o] in *.
      rewrite (rd_agree t3 m o3 page) by (auto; lia). rewrite (rd_agree t2 t3 o2 page) by (auto; lia).
      apply (rd_agree t1 t2 o1 page); auto; lia.
    + apply (v_lowv _ _ _ _ H).
    + intros k E. injection E as <-. rewrite <- Rt3. apply (rd_agree t3 m o3 page); auto; lia.
    + intros k E. injection E as <-. exact Vk.
    + cbn [ochunk]. replace (page - (page - o3)) with o3 by lia.
      eapply layout_perm; [|apply layout_cons with (base := o2) (off := o3) (len := klen sep); [exact D2|lia|lia]].
      cbn [app]. apply Permutation_middle.
    + lia.
    + rewrite sum_live_t. lia.
    + exists (klen_o (a_low a)). cbn [klen_o]. split; [lia|]. split; [lia|]. lia.
  - constructor; cbn [vn_inner vn_removed vn_next vn_rc vn_mem vn_llen vn_loff vn_hlen vn_hoff vn_block vn_deleted
                    a_inner a_removed a_next a_slots a_low a_high klen_o]; auto.
    + apply Forall_filter; auto.
    + intros k Hk. apply Hkv. apply in_or_app. right. now apply keys_filter.
    + intros k E. injection E as <-. lia.
    + intros k E. injection E as <-. rewrite <- Rr1. rewrite (rd_agree r2 r3 ro2 page) by (auto; lia).
      apply (rd_agree r1 r2 rp page); auto; lia.
    + intros k E. injection E as <-. exact Vk.
    + apply (v_hlen _ _ _ _ H).
    + intros k E. rewrite <- (K2 k E). rewrite E in *. cbn [klen_o] in *.
      apply (rd_agree r2 r3 ro2 page); auto; lia.
    + apply (v_highv _ _ _ _ H).
    + replace (page - (page - ro3)) with ro3 by lia. cbn [ochunk].
      eapply layout_perm; [|exact B2]. rewrite !app_assoc. apply Permutation_app_tail, Permutation_app_comm.
    + lia.
    + rewrite sum_live_t. lia.
    + exists (klen sep). destruct Vk. split; [lia|]. split; [lia|]. lia.
  - exact F4.
  - exact F5.
  - cbn [vn_block]. lia.
  - cbn [vn_block]. lia.
Qed.

Lemma vx_merge_into_ok ml l al L dead r ar Lr deadr :
  vrep' l al L dead -> vrep' r ar Lr deadr -> a_inner al = a_inner ar ->
  hdr + vx_used l + vx_used r <= page ->
  let link := negb (ml && a_inner al) in
  exists l' L', vx_merge_into ml l r = Some l' /\
    vrep' l' (ANode (a_inner al) (a_removed al) (if link then a_next ar else a_next al)
                (a_low al) (a_high ar)
                (filter s_live (a_slots al) ++ filter s_live (a_slots ar))) L' 0 /\
    vx_used l' <= vx_used l + vx_used r /\ vn_deleted l' = 0.
Proof.
  intros H Hr Hin Hsp link. unfold vx_merge_into.
  rewrite (v_inner _ _ _ _ H), (v_next _ _ _ _ H), (v_next _ _ _ _ Hr), (v_removed _ _ _ _ H).
  destruct (v_used _ _ _ _ H) as (res & Q1 & Q2 & Q3).
  destruct (v_used _ _ _ _ Hr) as (resr & Q1r & Q2r & Q3r).
  rewrite Q3, Q3r in Hsp.
  destruct (vx_copylow_ok mem_undef _ _ _ _ H) as (t1 & E1 & K1 & Y1 & Z1). rewrite E1.
  set (o1 := page - klen_o (a_low al)) in *.
  assert (Ho1 : o1 + klen_o (a_low al) = page) by (unfold o1; lia). clearbody o1.
  destruct (vx_copyhigh_ok t1 _ _ _ _ _ o1 Hr Y1) as (t2 & E2 & K2 & Y2 & A2); [lia|lia|].
  rewrite E2. set (o2 := o1 - klen_o (a_high ar)) in *.
  assert (Ho2 : o2 + klen_o (a_high ar) = o1) by (unfold o2; lia). clearbody o2.
  pose proof (v_slots _ _ _ _ H) as Hsl. pose proof (v_slots _ _ _ _ Hr) as Hslr.
  set (cs := ochunk (a_high ar) o2 ++ ochunk (a_low al) (vn_loff l)) in *.
  destruct (vx_copyrecs_ok (vn_mem l) cs L t2 [] 0 o2)
    as (t3 & L1 & o3 & E3 & F1 & F2 & F3 & [D1 D2 D3 D4]).
  { eapply vrep_vsrc; eauto. }
  { intros i s o Hi. destruct i; discriminate. }
  { rewrite app_nil_r. exact Y2. }
  { lia. }
  { cbn [length]. rewrite vm_off_eq, <- Hsl. lia. }
  cbn [app] in *. change (length (@nil (slot * nat))) with 0 in *.
  rewrite (v_rc _ _ _ _ H), E3. rewrite <- Hsl in F1, F2.
  pose proof (sum_live (a_slots al)) as Hlv. rewrite <- F1, map_length in Hlv. rewrite F1 in Hlv.
  pose proof (sum_live (a_slots ar)) as Hlvr.
  destruct (vx_reflect_ok (vn_mem l) t3 (length L1) o3 F3 ltac:(lia)) as (m1 & E4 & G1 & G2).
  rewrite E4.
  destruct (vx_copyrecs_ok (vn_mem r) cs Lr m1 L1 0 o3)
    as (m2 & L2 & o4 & E5 & J1 & J2 & J3 & [B1 B2 B3 B4]).
  { eapply vrep_vsrc; eauto. }
  { eapply vdata_agree; eauto. }
  { exact D2. }
  { lia. }
  { rewrite vm_off_eq, <- Hslr. lia. }
  rewrite (v_rc _ _ _ _ Hr), E5. rewrite <- Hslr in J1, J2.
  pose proof (v_kind _ _ _ _ H) as Hkind1. pose proof (v_kind _ _ _ _ Hr) as Hkind2. rewrite <- Hin in Hkind2.
  eexists. exists (L1 ++ L2). split; [reflexivity|].
  assert (Hmap : map fst (L1 ++ L2) = filter s_live (a_slots al) ++ filter s_live (a_slots ar))
    by (rewrite map_app; congruence).
  assert (Hlen : length (L1 ++ L2) = length L1 + length (filter s_live (a_slots ar)))
    by (rewrite <- J1, map_length, app_length; reflexivity).
  rewrite vm_off_eq in J3.
  split; [|split].
  - constructor; cbn [vn_inner vn_removed vn_next vn_rc vn_mem vn_llen vn_loff vn_hlen vn_hoff vn_block vn_deleted
                    a_inner a_removed a_next a_slots a_low a_high]; auto.
    + apply Forall_app. split; apply Forall_filter; auto.
    + intros k Hk. rewrite keys_of_app in Hk. apply in_app_or in Hk as [Hk|Hk]; apply keys_filter in Hk.
      * now apply (v_keys _ _ _ _ H).
      * now apply (v_keys _ _ _ _ Hr).
    + apply (v_llen _ _ _ _ H).
    + apply (v_loff _ _ _ _ H).
    + intros k E. rewrite <- (K1 k E). pose proof (Z1 k E) as Z. rewrite E in *. cbn [klen_o] in *.
      rewrite (rd_agree m1 m2 o3 page) by (auto; lia). rewrite (rd_agree t3 m1 o3 page) by (auto; lia).
      rewrite (rd_agree t2 t3 o2 page) by (auto; lia). apply (rd_agree t1 t2 o1 page); auto; lia.
    + apply (v_lowv _ _ _ _ H).
    + apply (v_hlen _ _ _ _ Hr).
    + intros k E. rewrite <- (K2 k E). rewrite E in *. cbn [klen_o] in *.
      rewrite (rd_agree m1 m2 o3 page) by (auto; lia). rewrite (rd_agree t3 m1 o3 page) by (auto; lia).
      apply (rd_agree t2 t3 o2 page); auto; lia.
    + apply (v_highv _ _ _ _ Hr).
    + replace (page - (page - o4)) with o4 by lia. eapply layout_perm; [|exact B2]. unfold cs.
      rewrite !app_assoc. apply Permutation_app_tail, Permutation_app_comm.
    + lia.
    + rewrite sum_app, !sum_live_t. lia.
    + exists (klen_o (a_low al)). rewrite sum_app. split; [lia|]. split; [lia|]. lia.
  - unfold vx_used at 1. cbn [vn_rc vn_block vn_deleted]. rewrite Q3, Q3r, Hlen. lia.
  - reflexivity.
Qed.

Lemma vrep_new inner : hdr <= page -> vrep' (vx_new inner) (ANode inner false None None None []) [] 0.
Proof.
  intros Hh. constructor; cbn; auto; try discriminate; try tauto; try (intros k E; discriminate).
  - intros i s off Hi. destruct i; discriminate.
  - split; constructor.
  - lia.
  - exists 0. lia.
Qed.

Lemma vx_root2_ok k l r : vkey k -> hdr + 2 * metalen + 2 * ptrlen + maxkey <= page ->
  exists n L, vx_root2 k l r = Some n /\
    vrep' n (ANode true false None None None [Slot None (PP l) false; Slot (Some k) (PP r) false]) L 0.
Proof.
  intros Vk Hsp. destruct Vk as [V1 V2]. unfold vx_root2, vx_setpay, vx_setkey. cbn [paylen].
  assert (E0 : vm_off 0 = hdr) by (rewrite vm_off_eq; lia).
  assert (E1 : vm_off 1 = hdr + metalen) by (rewrite vm_off_eq; lia).
  assert (E2 : vm_off 2 = hdr + 2 * metalen) by (rewrite vm_off_eq; lia).
  set (o1 := page - ptrlen). assert (Ho1 : o1 + ptrlen = page) by (unfold o1; lia). clearbody o1.
  rewrite mwr_ok by (rewrite ?length_enc_pay; cbn [paylen]; lia). set (m1 := wr _ o1 _).
  rewrite vx_setmeta_ok by lia. set (m2 := wr m1 _ _).
  set (o2 := o1 - ptrlen). assert (Ho2 : o2 + ptrlen = o1) by (unfold o2; lia). clearbody o2.
  rewrite mwr_ok by (rewrite ?length_enc_pay; cbn [paylen]; lia). set (m3 := wr m2 _ _).
  set (o3 := o2 - klen k). assert (Ho3 : o3 + klen k = o2) by (unfold o3; lia). clearbody o3.
  rewrite mwr_ok by (rewrite ?length_enc_key; lia). set (m4 := wr m3 _ _).
  rewrite vx_setmeta_ok by lia. set (m5 := wr m4 _ _).
  eexists. exists [(Slot None (PP l) false, o1); (Slot (Some k) (PP r) false, o3)].
  split; [reflexivity|].
  constructor; cbn [vn_inner vn_removed vn_next vn_rc vn_mem vn_llen vn_loff vn_hlen vn_hoff vn_block vn_deleted
                    a_inner a_removed a_next a_slots a_low a_high klen_o map fst length]; auto; try discriminate.
  - intros i s off Hi. destruct i as [|[|i]]; cbn in Hi; [| |destruct i; discriminate]; injection Hi as <- <-.
    + split.
      * unfold m5. rewrite vmeta_wr. change (0 =? 1) with false. unfold m4.
        rewrite rd_wr_other by (rewrite ?length_enc_key; lia). unfold m3.
        rewrite rd_wr_other by (rewrite ?length_enc_pay; lia). unfold m2. rewrite vmeta_wr. reflexivity.
      * split; [intros k' E; discriminate|]. cbn [s_key s_pay klen_o paylen]. rewrite Nat.add_0_r.
        unfold m5. rewrite rd_wr_other by (rewrite ?length_enc_meta; lia).
        unfold m4. rewrite rd_wr_other by (rewrite ?length_enc_key; lia).
        unfold m3. rewrite rd_wr_other by (rewrite ?length_enc_pay; cbn [paylen]; lia).
        unfold m2. rewrite rd_wr_other by (rewrite ?length_enc_meta; lia).
        apply (rd_wr_pay _ _ (PP l)).
    + split.
      * unfold m5. rewrite vmeta_wr. reflexivity.
      * split.
        -- intros k' E. cbn in E. inv E. unfold m5. rewrite rd_wr_other by (rewrite ?length_enc_meta; lia).
           apply rd_wr_key.
        -- cbn [s_key s_pay klen_o paylen]. unfold m5. rewrite rd_wr_other by (rewrite ?length_enc_meta; lia).
           unfold m4. rewrite rd_wr_other by (rewrite ?length_enc_key; lia).
           rewrite Ho3. apply (rd_wr_pay _ _ (PP r)).
  - repeat constructor.
  - cbn. intros k' [<-|[]]. split; auto.
  - cbn [ochunk app]. unfold rchunk, slen. cbn [fst snd s_key s_pay klen_o paylen].
    replace (page - (page - o3)) with o3 by lia.
    eapply layout_perm; [apply perm_swap|].
    apply layout_cons with (base := o1); [|lia|lia].
    apply layout_cons with (base := page); [apply layout_nil|lia|lia].
  - lia.
  - exists 0. unfold sum, slen. cbn. lia.
Qed.

End VarSmo.
