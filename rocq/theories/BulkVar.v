(** Bulkload with variable-length nodes: the node functions obey [BulkLaws]. *)
From Coq Require Import List Arith ZArith Bool Lia Sorted Permutation.
From Verif Require Import Params Mem Common Spec NodeAbs TreeState Levels TreeHeap
  FixProofs VarModel VarProofs VarSL BulkModel BulkProofs.
Import ListNotations.

(** Page configurations in which a bulkloaded node (filled to nine tenths) holds at least
    two records of maximal length besides its fence keys. *)
Class VarBulkGood (P : Params) := {
  vb_cap : hdr + 2 * maxkey + 2 * vmax <= bulkcap;
  vb_inner : 1 <= vx_inner_cap;
}.

Section BulkVar.
Context {P : Params} {O : OrdLaws P} {F : VarSizes P} {G : VarBulkGood P}.

Lemma vbulkcap_page : bulkcap <= page.
Proof. unfold bulkcap. apply Nat.div_le_upper_bound; lia. Qed.

Lemma epay_kind' inner e : epay inner e <-> pay_kind inner (snd e).
Proof. unfold epay, pay_kind. destruct (snd e); tauto. Qed.

Lemma layout_shrink base o n o' n' cs : layout base ((o, n) :: cs) -> o <= o' -> o' + n' <= o + n ->
  layout base ((o', n') :: cs).
Proof.
  intros [A B] H1 H2. inv A. inv B. split.
  - constructor; auto. destruct H3 as [X Y]. cbn in X, Y. split; cbn; lia.
  - constructor; auto. eapply Forall_impl; [|exact H5]. intros d [X|X]; cbn in X; [left|right]; cbn; lia.
Qed.

Lemma vx_append_ok m L cs off k p : vdata m L -> layout off (cs ++ map rchunk L) -> off <= page ->
  vm_off (length L) + (klen k + paylen p + metalen) <= off ->
  exists m1 m2 m3,
    vx_setpay m off p = Some (m1, off - paylen p) /\
    vx_setkey m1 (off - paylen p) k = Some (m2, off - (klen k + paylen p)) /\
    vx_setmeta m2 (length L) (Meta false (off - (klen k + paylen p)) (klen k) (klen k + paylen p)) = Some m3 /\
    vdata m3 (L ++ [(Slot (Some k) p false, off - (klen k + paylen p))]) /\
    layout (off - (klen k + paylen p)) (cs ++ map rchunk (L ++ [(Slot (Some k) p false, off - (klen k + paylen p))])).
Proof.
  intros HD HL Hop Hsp. pose proof (vm_off_hdr (length L)) as Hh. set (w := klen k + paylen p) in *.
  set (m1 := wr m (off - paylen p) (enc_pay p)).
  set (m2 := wr m1 (off - w) (enc_key k)).
  set (m3 := wr m2 (vm_off (length L)) (enc_meta (Meta false (off - w) (klen k) w))).
  exists m1, m2, m3.
  split. { unfold vx_setpay. rewrite mwr_ok; [reflexivity|lia|rewrite length_enc_pay; lia]. }
  split.
  { unfold vx_setkey. replace (off - paylen p - klen k) with (off - w) by (unfold w; lia).
    rewrite mwr_ok; [reflexivity|lia|rewrite length_enc_key; lia]. }
  split. { apply vx_setmeta_ok. rewrite vm_off_S. lia. }
  assert (A1 : agree m m1 off page) by (apply agree_wr; rewrite length_enc_pay; lia).
  assert (A1' : agree m m1 (vm_off 0) (vm_off (length L))) by (apply agree_wr; lia).
  assert (A2 : agree m1 m2 (off - paylen p) page) by (apply agree_wr; rewrite length_enc_key; unfold w; lia).
  assert (A2' : agree m1 m2 (vm_off 0) (vm_off (length L))) by (apply agree_wr; lia).
  assert (A3 : agree m2 m3 (off - w) page) by (apply agree_wr; rewrite length_enc_meta; lia).
  assert (A3' : agree m2 m3 (vm_off 0) (vm_off (length L))) by (apply agree_wr; lia).
  split.
  - apply vdata_app; cbn [fst snd].
    + eapply vdata_agree; [exact HD|exact HL| |].
      * eapply agree_trans; [exact A1'|]. eapply agree_trans; eauto.
      * eapply agree_trans; [exact A1|]. eapply agree_trans; [eapply agree_sub; [exact A2|lia|lia]|].
        eapply agree_sub; [exact A3|lia|lia].
    + unfold m3, vmt, slen. cbn [s_del s_key s_pay klen_o]. fold w.
      replace metalen with (length (enc_meta (Meta false (off - w) (klen k) w))) by apply length_enc_meta.
      apply rd_wr_same.
    + split; cbn [s_key s_pay klen_o].
      * intros x Ex. injection Ex as <-. rewrite (rd_agree m2 m3 (off - w) page); [|exact A3|lia|lia].
        apply rd_wr_key.
      * rewrite (rd_agree m2 m3 (off - w) page); [|exact A3|lia|unfold w; lia].
        replace (off - w + klen k) with (off - paylen p) by (unfold w in *; lia).
        rewrite (rd_agree m1 m2 (off - paylen p) page); [|exact A2|lia|unfold w in *; lia].
        apply rd_wr_pay.
  - eapply layout_perm; [apply Permutation_sym, perm_layout_add|].
    unfold rchunk at 1. cbn [fst snd]. unfold slen. cbn [s_key s_pay klen_o]. fold w.
    apply layout_cons with (base := off); auto. lia.
Qed.

Lemma vx_bulk_loop_ok : forall es m L off,
  vdata m L -> layout off ([(page - maxkey, maxkey)] ++ map rchunk L) ->
  off = page - maxkey - sum slen (map fst L) -> maxkey + sum slen (map fst L) <= page ->
  exists m' L1 l1 l2,
    vx_bulk_loop m off (hdr + maxkey + metalen * length L + sum slen (map fst L)) (length L) es =
      Some (m', page - maxkey - sum slen (map fst (L ++ L1)), length (L ++ L1), l2) /\
    es = l1 ++ l2 /\ map fst L1 = map slot_of l1 /\
    vdata m' (L ++ L1) /\
    layout (page - maxkey - sum slen (map fst (L ++ L1))) ([(page - maxkey, maxkey)] ++ map rchunk (L ++ L1)) /\
    (l1 <> [] -> hdr + 2 * maxkey + metalen * length (L ++ L1) + sum slen (map fst (L ++ L1)) <= bulkcap) /\
    (l2 <> [] -> exists k p, In (k, p) l2 /\
       bulkcap < hdr + 2 * maxkey + metalen * length (L ++ L1) + sum slen (map fst (L ++ L1)) + (klen k + paylen p + metalen)).
Proof.
  induction es as [|[k p] es IH]; intros m L off HD HL Hoff Hfit.
  - exists m, [], [], []. cbn [vx_bulk_loop app map]. rewrite !app_nil_r. subst off.
    split; [reflexivity|]. split; [reflexivity|]. split; [reflexivity|]. split; [exact HD|]. split; [exact HL|].
    split; congruence.
  - cbn [vx_bulk_loop].
    destruct (bulkcap <? hdr + maxkey + metalen * length L + sum slen (map fst L) + (klen k + paylen p + metalen) + maxkey) eqn:Ec.
    + apply Nat.ltb_lt in Ec. exists m, [], [], ((k, p) :: es). cbn [app map]. rewrite !app_nil_r. subst off.
      split; [reflexivity|]. split; [reflexivity|]. split; [reflexivity|]. split; [exact HD|]. split; [exact HL|].
      split; [congruence|]. intros _. exists k, p. split; [now left|]. lia.
    + apply Nat.ltb_ge in Ec. pose proof vbulkcap_page as Hbp.
      set (s := Slot (Some k) p false).
      assert (Hs : slen s = klen k + paylen p) by reflexivity.
      destruct (vx_append_ok m L [(page - maxkey, maxkey)] off k p HD HL) as (m1 & m2 & m3 & E1 & E2 & E3 & HD' & HL').
      { lia. } { rewrite vm_off_eq. lia. }
      rewrite E1, E2, E3. fold s in HD', HL'. set (x := (s, off - (klen k + paylen p))) in *.
      assert (Hsum : sum slen (map fst (L ++ [x])) = sum slen (map fst L) + (klen k + paylen p)).
      { rewrite map_app, sum_app. cbn [map fst x]. rewrite sum_cons, sum_nil, Hs. lia. }
      assert (Hlen : length (L ++ [x]) = length L + 1) by (rewrite app_length; reflexivity).
      destruct (IH m3 (L ++ [x]) (off - (klen k + paylen p)) HD' HL') as (m' & L1 & l1 & l2 & E & Ees & Hmap & HD'' & HL'' & H1 & H2).
      { rewrite Hsum. lia. } { rewrite Hsum. lia. }
      rewrite Hsum, Hlen in E. rewrite <- app_assoc in E, HD'', HL'', H1, H2. cbn [app] in E, HD'', HL'', H1, H2.
      exists m', (x :: L1), ((k, p) :: l1), l2.
      split.
      { rewrite <- E. f_equal. lia. }
      split; [now rewrite Ees|]. split; [cbn [map]; f_equal; exact Hmap|].
      split; [exact HD''|]. split; [exact HL''|]. split; [|exact H2].
      intros _. destruct l1 as [|y l1]; [|apply H1; discriminate].
      destruct L1 as [|? ?]; [|discriminate]. rewrite Hsum, Hlen, Nat.mul_add_distr_l. lia.
Qed.

Definition vx_bulk_room (n : vnode) : Prop := hdr + metalen * vn_rc n + vn_block n + maxkey <= page.

Lemma vx_bulk_ok inner e es : Forall (epay inner) (e :: es) -> (forall x, In x (e :: es) -> vkey (fst x)) ->
  exists d l1 l2, vx_bulk inner (e :: es) = Some (fst e, d, l2) /\ e :: es = l1 ++ l2 /\
    l1 <> [] /\ (2 <= length (e :: es) -> 2 <= length l1) /\
    vrep d (ANode inner false None (Some (fst e)) None (map slot_of l1)) /\ vx_bulk_room d.
Proof.
  intros Hp Hv. unfold vx_bulk. destruct e as [k0 p0]. cbn [fst].
  pose proof vb_cap as Hcap. pose proof vbulkcap_page as Hbp.
  destruct (vx_bulk_loop_ok ((k0, p0) :: es) mem_undef [] (page - maxkey)) as
    (m & L & l1 & l2 & E & Ees & Hmap & HD & HL & H1 & H2).
  { intros [|i] s off; cbn; discriminate. }
  { cbn [map app]. apply layout_cons with (base := page); [apply layout_nil|lia|lia]. }
  { cbn. lia. } { cbn. unfold vmax in *. lia. }
  cbn [app length map] in *. rewrite sum_nil, Nat.mul_0_r, !Nat.add_0_r in E. rewrite E.
  assert (Hlen : length L = length l1) by (rewrite <- (map_length fst L), Hmap, map_length; reflexivity).
  assert (Hmaxs : forall l, (forall x, In x l -> vkey (fst x)) -> sum slen (map slot_of l) + metalen * length l <= vmax * length l).
  { clear. induction l as [|[k p] l IH]; intros Hv; [cbn; lia|].
    cbn [map length]. rewrite sum_cons. specialize (IH (fun x Hx => Hv x (or_intror Hx))).
    destruct (Hv (k, p) (or_introl eq_refl)) as [_ Hk]. cbn in Hk.
    unfold slen, slot_of in *. cbn [s_key s_pay klen_o fst snd] in *.
    assert (paylen p <= Nat.max plen ptrlen) by (destruct p; cbn; lia). unfold vmax in *. lia. }
  rewrite Hmap in *.
  assert (Hl2 : l2 <> [] -> 2 <= length l1).
  { intros Hne. destruct (H2 Hne) as (k & p & Hin & Hc). destruct (Nat.le_gt_cases 2 (length l1)) as [|Hlt]; auto. exfalso.
    assert (Hk : vkey k) by (apply (Hv (k, p)); rewrite Ees; apply in_or_app; now right).
    assert (paylen p <= Nat.max plen ptrlen) by (destruct p; cbn; lia).
    specialize (Hmaxs l1). assert (Hx : sum slen (map slot_of l1) + metalen * length l1 <= vmax * length l1).
    { apply Hmaxs. intros x Hx. apply Hv. rewrite Ees. apply in_or_app. now left. }
    assert (vmax * length l1 <= vmax * 1) by (apply Nat.mul_le_mono_l; lia).
    destruct Hk as [_ Hk]. rewrite Hlen in Hc. unfold vmax in *. lia. }
  assert (Hl1 : 1 <= length l1).
  { destruct l2; [|specialize (Hl2 ltac:(discriminate)); lia]. rewrite app_nil_r in Ees. rewrite <- Ees. cbn. lia. }
  destruct l1 as [|e1 l1]; [cbn in Hl1; lia|]. assert (e1 = (k0, p0)) as -> by (cbn in Ees; congruence).
  specialize (H1 ltac:(discriminate)). set (l := (k0, p0) :: l1) in *.
  set (S1 := sum slen (map slot_of l)) in *.
  assert (Hk0 : vkey k0) by (apply (Hv (k0, p0)); now left). destruct Hk0 as [Hk0 Hk0'].
  unfold vx_setkey. rewrite mwr_ok; [|lia|rewrite length_enc_key; lia].
  set (m1 := wr m (page - klen k0) (enc_key k0)).
  eexists _, l, l2. split; [reflexivity|]. split; [exact Ees|]. split; [discriminate|].
  split.
  { intros H2'. destruct l2; [|apply Hl2; discriminate]. rewrite app_nil_r in Ees. rewrite <- Ees. exact H2'. }
  assert (Hblk : page - (page - maxkey - S1) = maxkey + S1) by lia.
  split; [|unfold vx_bulk_room; cbn [vn_rc vn_block]; lia].
  exists L, 0.
  assert (HLc : forall i s off, nth_error L i = Some (s, off) -> page - maxkey - S1 <= off /\ off + slen s <= page - maxkey).
  { intros i s off Hi. destruct HL as [A B]. rewrite Forall_forall in A. destruct (A _ (or_intror (in_rchunk _ _ _ _ Hi))) as [A1 A2].
    cbn in A1, A2. split; [exact A1|]. cbn [app] in B. inversion B as [|? ? B1 B2]; subst. rewrite Forall_forall in B1.
    destruct (B1 _ (in_rchunk _ _ _ _ Hi)) as [B3|B3]; cbn in B3; [|lia].
    assert (0 < slen s); [|lia].
    assert (Hs : In s (map slot_of l)) by (rewrite <- Hmap; apply nth_error_In in Hi; apply (in_map fst) in Hi; exact Hi).
    apply in_map_iff in Hs as (y & <- & Hy). unfold slen, slot_of. cbn [s_key klen_o].
    assert (vkey (fst y)) as [Hy1 _] by (apply Hv; rewrite Ees; apply in_or_app; now left). lia. }
  constructor; cbn [vn_inner vn_removed vn_next vn_rc vn_mem vn_llen vn_loff vn_hlen vn_hoff vn_block vn_deleted
                    a_inner a_removed a_next a_slots a_high a_low klen_o].
  - reflexivity.
  - reflexivity.
  - reflexivity.
  - now rewrite Hmap.
  - reflexivity.
  - intros i s off Hi. destruct (HD i s off Hi) as [X Y]. destruct (HLc _ _ _ Hi) as [Z1 Z2].
    pose proof (nth_error_lt _ _ _ Hi) as Hlt.
    assert (Hmo : vm_off i + metalen <= page - maxkey - S1).
    { pose proof (vm_off_lt _ _ Hlt). rewrite (vm_off_eq (length L)) in *. lia. }
    split.
    + rewrite <- X. apply (rd_agree m m1 hdr (page - klen k0)); [apply agree_wr; lia|apply vm_off_hdr|lia].
    + apply (srec_agree m m1 hdr (page - klen k0)); auto; [apply agree_wr; lia| |lia].
      pose proof (vm_off_hdr i). lia.
  - apply Forall_forall. intros s Hs. apply in_map_iff in Hs as (x & <- & Hx).
    apply epay_kind'. rewrite Forall_forall in Hp. apply Hp. rewrite Ees. apply in_or_app. now left.
  - intros k Hk. apply in_keys_of in Hk as (s & Hs & Hks). apply in_map_iff in Hs as (x & <- & Hx). cbn in Hks.
    injection Hks as <-. apply Hv. rewrite Ees. apply in_or_app. now left.
  - reflexivity.
  - intros k Ek. injection Ek as <-. reflexivity.
  - intros k Ek. injection Ek as <-. apply rd_wr_key.
  - intros k Ek. injection Ek as <-. split; auto.
  - reflexivity.
  - intros k Ek. discriminate.
  - discriminate.
  - rewrite Hblk. cbn [ochunk app]. replace (page - (maxkey + S1)) with (page - maxkey - S1) by lia.
    cbn [app] in HL. eapply layout_shrink; [exact HL|lia|lia].
  - rewrite Hblk. lia.
  - assert (Ht : sum tsize (map slot_of l) = 0).
    { clear. induction l as [|x l IH]; [reflexivity|]. cbn [map]. rewrite sum_cons. cbn. exact IH. }
    rewrite Ht. reflexivity.
  - exists maxkey. rewrite Hblk. fold S1. lia.
  - reflexivity.
Qed.

Lemma vx_link_ok sl l al ra r ar k : vrep l al -> vx_bulk_room l -> a_high al = None ->
  vrep r ar -> a_low ar = Some k -> kat (a_slots ar) 0 = Some k ->
  exists l', vx_link sl l ra r = Some l' /\
    vrep l' (ANode (a_inner al) (a_removed al) (if sl || negb (a_inner al) then Some ra else a_next al)
                   (a_low al) (Some k) (a_slots al)).
Proof.
  intros (L & dead & H) Hroom Hh (Lr & dr & Hr) Hlow Hk. unfold vx_link, vx_bulk_room in *.
  unfold kat in Hk. destruct (nth_error (a_slots ar) 0) as [s|] eqn:Es; [|discriminate].
  destruct (v_slot _ _ _ _ Hr _ _ Es) as (off & Hoff).
  rewrite (v_meta _ _ _ _ Hr _ _ _ Hoff). cbn [vmt md_klen md_off md_rlen].
  assert (Hvk : vkey k) by (apply (v_lowv _ _ _ _ Hr k Hlow)). destruct Hvk as [Hk0 Hk1].
  assert (Ehl : (if sl then vn_llen r else klen_o (s_key s)) = klen k).
  { rewrite (v_llen _ _ _ _ Hr), Hlow, Hk. cbn. now destruct sl. }
  rewrite Ehl. unfold vx_mkey. cbn [md_off md_klen].
  destruct (v_chunk _ _ _ _ Hr _ _ _ Hoff) as [C1 C2]. pose proof (vm_off_hdr (length Lr)) as Hh0.
  assert (Hsl : slen s = klen k + paylen (s_pay s)) by (unfold slen; rewrite Hk; reflexivity).
  rewrite mrd_key with (k := k).
  2:{ lia. } 2:{ lia. } 2:{ exact Hk0. } 2:{ destruct (v_data _ _ _ _ Hr _ _ _ Hoff) as [_ [Y _]]. apply Y. exact Hk. }
  pose proof (v_rc _ _ _ _ H) as Hrc. rewrite Hrc in *.
  unfold vx_setkey. rewrite mwr_ok; [|lia|rewrite length_enc_key; lia].
  set (ho := page - vn_block l - klen k). set (m := wr (vn_mem l) ho (enc_key k)).
  assert (A1 : agree (vn_mem l) m (page - vn_block l) page) by (apply agree_wr; rewrite length_enc_key; unfold ho; lia).
  assert (A2 : agree (vn_mem l) m (vm_off 0) (vm_off (length L))).
  { apply agree_wr. rewrite vm_off_eq. unfold ho. lia. }
  eexists. split; [reflexivity|]. exists L, dead.
  pose proof (v_lay _ _ _ _ H) as HLay. rewrite Hh in HLay. cbn [ochunk app] in HLay.
  assert (Hblk : page - (vn_block l + klen k) = ho) by (unfold ho; lia).
  constructor; cbn [vn_inner vn_removed vn_next vn_rc vn_mem vn_llen vn_loff vn_hlen vn_hoff vn_block vn_deleted
                    a_inner a_removed a_next a_slots a_high a_low klen_o].
  - apply H.
  - apply H.
  - rewrite (v_inner _ _ _ _ H), (v_next _ _ _ _ H). reflexivity.
  - apply H.
  - reflexivity.
  - eapply vdata_agree; [apply (v_data _ _ _ _ H)|exact HLay|exact A2|exact A1].
  - apply H.
  - apply H.
  - apply H.
  - apply H.
  - apply (v_lowk_agree _ _ _ _ H). exact A1.
  - apply H.
  - reflexivity.
  - intros x Ex. injection Ex as <-. apply rd_wr_key.
  - intros x Ex. injection Ex as <-. split; auto.
  - rewrite Hblk. cbn [ochunk]. eapply layout_perm; [apply Permutation_middle|].
    apply layout_cons with (base := page - vn_block l); [exact HLay|unfold ho; lia|lia].
  - lia.
  - apply H.
  - destruct (v_acc _ _ _ _ H) as (res & X1 & X2 & X3). rewrite Hh in X3. cbn [klen_o] in X3.
    exists res. lia.
  - apply H.
Qed.

Lemma vx_unlow_ok d a : vrep d a ->
  vrep (vx_unlow d) (ANode (a_inner a) (a_removed a) (a_next a) None (a_high a) (a_slots a)).
Proof.
  intros (L & dead & H). exists L, dead.
  constructor; cbn [vx_unlow vn_inner vn_removed vn_next vn_rc vn_mem vn_llen vn_loff vn_hlen vn_hoff vn_block vn_deleted
                    a_inner a_removed a_next a_slots a_high a_low klen_o]; try apply H; try discriminate.
  - reflexivity.
  - cbn [ochunk app]. pose proof (v_lay _ _ _ _ H) as HL.
    destruct (a_low a); [|exact HL]. cbn [ochunk app] in HL. eapply layout_tail; eauto.
  - destruct (v_acc _ _ _ _ H) as (res & X1 & X2 & X3). exists res. lia.
Qed.

#[local] Instance var_bulk_laws (sl : bool) : BulkLaws P vnode (var_bulk sl) sl vrep vkey.
Proof.
  refine {| bk_room := vx_bulk_room |}; cbn [var_bulk bk_fill bk_link bk_inner bk_rc bk_child bk_unlow bk_cap].
  - intros inner e es Hp Hv. destruct (vx_bulk_ok inner e es Hp Hv) as (d & l1 & l2 & A & B & C & D & E & E').
    exists d, l1, l2. split; [exact A|]. split; [exact B|]. split; [exact C|]. split; [auto|]. split; [exact E|exact E'].
  - intros l al ra r ar k H Hr Hh Hl H' Hlow Hk _. now apply (vx_link_ok sl l al ra r ar k).
  - intros d a (L & dd & H). split; [apply H|]. rewrite (v_len _ _ _ _ H). apply H.
  - intros d a i s c (L & dd & H) _. apply (v_child _ _ _ _ H).
  - intros d a H _. now apply vx_unlow_ok.
  - apply vb_inner.
Defined.

End BulkVar.
