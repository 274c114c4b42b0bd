(** The multi-layer trees refine the abstract map. *)
From Coq Require Import List Arith Bool Lia Sorted Permutation.
From Verif Require Import Params Mem Common Spec NodeAbs SLIface MLIface TreeState Levels TreeHeap
  LevelOps SLModel SLSearch SLSplit SLMerge SLProofs WalkProofs MLModel MLSearch MLSteps MLPess MLOpt.
Import ListNotations.

Section MLProofs.
Context {P : Params} {O : OrdLaws P} {N : MLOps P} {LW : MLLaws P N} {WK : Leak} (oml : bool).
Notation hinv := (@hinv P WK mn mrep).

(** The state represents the map [m], no latch is held, and there are at most [H] inner
    levels.  In the pessimistic tree address 0 is never a page. *)
Definition ml_inv (H : nat) (s : st mn) (m : amap) : Prop :=
  exists leafs U, tree false leafs U (rt s) /\ hinv (hp s) (fr s) (gb s) (leafs ++ concat U) /\
    lk s = [] /\ (oml = false -> hp s 0 = None /\ 0 < fr s) /\ length U <= H /\ forall k, assoc k (recs leafs) = m k.

Lemma ml_inv_mono H H' s m m' : ml_inv H s m -> H <= H' -> amap_eq m m' -> ml_inv H' s m'.
Proof.
  intros (leafs & U & A & B & C & D & F & G) Hle Hm. exists leafs, U.
  do 4 (split; [assumption|]). split; [lia|]. intros k. rewrite G. apply Hm.
Qed.

Lemma ml_at_leaf leafs U root h f g key :
  tree false leafs U root -> hinv h f g (leafs ++ concat U) ->
  exists L1 a n L2 d, leafs = L1 ++ (a, n) :: L2 /\ fnd NegInf key leafs = a /\
    in_range (lasthi NegInf L1) key (hi_ext n) /\ node_wf false false (lasthi NegInf L1) n /\
    h a = Some d /\ mrep d n /\ hinv h f g (L1 ++ (a, n) :: (L2 ++ concat U)) /\
    assoc key (recs L1) = None /\ assoc key (recs L2) = None /\
    a_inner n = false /\ leaf_ok (a_slots n) /\
    assoc key (recs leafs) = assoc key (live (a_slots n)).
Proof.
  intros [HL HT] HF. destruct (lvl_find _ _ _ key HL) as (L1 & a & n & L2 & -> & Hf & Hr).
  destruct (seg_wf _ _ _ _ _ _ _ _ _ HL) as (Hwf & _ & _).
  assert (HFe : hinv h f g (L1 ++ (a, n) :: (L2 ++ concat U))).
  { eapply hinv_eq; [|exact HF]. fassoc. }
  destruct (hinv_get _ _ _ _ _ a n HFe) as (d & Hd & Hrep); [apply in_or_app; right; now left|].
  destruct (recs_mid _ _ _ _ _ _ HL Hr) as [HA HB].
  exists L1, a, n, L2, d. repeat (split; [first [solve [auto] | lia]|]).
  split; [exact (nw_inner _ _ _ _ Hwf)|]. split; [exact (nw_body _ _ _ _ Hwf)|].
  eapply recs_assoc; eauto.
Qed.

Lemma ml_leaf_set L1 a n n' L2 U root h f g d' extra recs0 :
  tree false (L1 ++ (a, n) :: L2) U root -> hinv h f g (L1 ++ (a, n) :: (L2 ++ concat U)) ->
  node_wf false false (lasthi NegInf L1) n -> leaf_upd n n' extra recs0 ->
  (forall k, In k extra -> in_range (lasthi NegInf L1) k (hi_ext n)) -> mrep d' n' ->
  tree false (L1 ++ (a, n') :: L2) U root /\
  hinv (upd h a (Some d')) f g ((L1 ++ (a, n') :: L2) ++ concat U) /\
  recs (L1 ++ (a, n') :: L2) = recs L1 ++ recs0 ++ recs L2.
Proof.
  intros [HL HT] HF Hwf Hu Hex Hrep.
  destruct (node_wf_leaf_upd _ _ _ _ _ _ Hwf Hu Hex) as (Hwf' & Hnx & Hhi & Hlive).
  split; [split|split].
  - eapply seg_replace; eauto.
  - rewrite (entries_replace _ _ _ n); auto.
  - eapply hinv_eq; [|eapply hinv_set; eauto]. fassoc.
  - rewrite recs_mid_eq, Hlive. reflexivity.
Qed.

(** ** What a call does to its leaf *)
Definition leafop (c : call) (n : mn) : option (return_code * mn) :=
  match c with
  | CRead _ => None
  | CWrite k v => match mn_write n k v with Some n' => Some (kSuccess, n') | None => None end
  | CInsert k v => mn_insert n k v
  | CUpdate k v => mn_update n k v
  | CDelete k => mn_delete n k
  end.

Definition is_read (c : call) : bool := match c with CRead _ => true | _ => false end.

Lemma leafop_ok c (m : amap) d n : is_read c = false ->
  mrep d n -> a_inner n = false -> leaf_ok (a_slots n) -> mvalid (call_key c) -> mroom d ->
  m (call_key c) = assoc (call_key c) (live (a_slots n)) ->
  exists rc d' n', leafop c d = Some (rc, d') /\ mrep d' n' /\ rc_ret rc = snd (spec_step m c) /\
    ((d' = d /\ n' = n /\ rc <> kSuccess /\ fst (spec_step m c) = m) \/
     (rc = kSuccess /\ exists extra o, (forall x, In x extra -> x = call_key c) /\
        fst (spec_step m c) = amap_set m (call_key c) o /\
        leaf_upd n n' extra (match o with
                             | Some v => upsert (call_key c) v (live (a_slots n))
                             | None => remove_key (call_key c) (live (a_slots n))
                             end))).
Proof.
  intros Hc Hr Hin Hok Hk Hrm Hm. destruct c as [k|k v|k v|k v|k]; try discriminate;
    cbn [leafop call_key spec_step] in *.
  - destruct (M_write d n k v Hr Hin Hok Hk Hrm) as (d' & n' & -> & A & B).
    exists kSuccess, d', n'. split; [auto|]. split; [auto|]. split; [auto|]. right. split; [auto|].
    exists [k], (Some v). split; [intros x [<-|[]]; auto|]. auto.
  - destruct (M_insert d n k v Hr Hin Hok Hk Hrm) as (rc & d' & n' & -> & A & B). rewrite Hm.
    exists rc, d', n'. split; [auto|]. split; [auto|].
    destruct B as [(-> & -> & -> & B)|(-> & B & C)].
    + destruct (assoc k (live (a_slots n))); [|congruence]. split; [auto|]. left.
      split; [auto|]. split; [auto|]. split; [discriminate|auto].
    + rewrite B. split; [auto|]. right. split; [auto|]. exists [k], (Some v).
      split; [intros x [<-|[]]; auto|]. auto.
  - destruct (M_update d n k v Hr Hin Hok Hk) as (rc & d' & n' & -> & A & B). rewrite Hm.
    exists rc, d', n'. split; [auto|]. split; [auto|].
    destruct B as [(-> & B & C)|(-> & -> & -> & B)].
    + destruct (assoc k (live (a_slots n))); [|congruence]. split; [auto|]. right. split; [auto|].
      exists [], (Some v). split; [intros x []|]. auto.
    + rewrite B. split; [auto|]. left. split; [auto|]. split; [auto|]. split; [discriminate|auto].
  - destruct (M_delete d n k Hr Hin Hok Hk) as (rc & d' & n' & -> & A & B). rewrite Hm.
    exists rc, d', n'. split; [auto|]. split; [auto|].
    destruct B as [(-> & B & C)|(-> & -> & -> & B)].
    + destruct (assoc k (live (a_slots n))); [|congruence]. split; [auto|]. right. split; [auto|].
      exists [], None. split; [intros x []|]. auto.
    + rewrite B. split; [auto|]. left. split; [auto|]. split; [auto|]. split; [discriminate|auto].
Qed.

(** The final state after the leaf has been stored. *)
Lemma leaf_final c m H L1 a n L2 U root h f g d n' d' extra o :
  tree false (L1 ++ (a, n) :: L2) U root -> hinv h f g (L1 ++ (a, n) :: (L2 ++ concat U)) ->
  (oml = false -> h 0 = None /\ 0 < f) -> length U <= H ->
  node_wf false false (lasthi NegInf L1) n -> in_range (lasthi NegInf L1) (call_key c) (hi_ext n) ->
  h a = Some d -> mrep d' n' ->
  (forall k, assoc k (recs (L1 ++ (a, n) :: L2)) = m k) ->
  assoc (call_key c) (recs L1) = None -> assoc (call_key c) (recs L2) = None ->
  (forall x, In x extra -> x = call_key c) ->
  fst (spec_step m c) = amap_set m (call_key c) o ->
  leaf_upd n n' extra (match o with
                       | Some v => upsert (call_key c) v (live (a_slots n))
                       | None => remove_key (call_key c) (live (a_slots n))
                       end) ->
  ml_inv H (St (upd h a (Some d')) root f [] g) (fst (spec_step m c)).
Proof.
  intros HT HF H0 HU Hwf Hrng Hd Hr Hm HA HB Hex Hs Hu.
  destruct (ml_leaf_set L1 a n n' L2 U root h f g d' extra _ HT HF Hwf Hu) as (A & B & C); auto.
  { intros x Hx. now rewrite (Hex x Hx). }
  exists (L1 ++ (a, n') :: L2), U. cbn [hp rt fr lk gb].
  split; [auto|]. split; [auto|]. split; [auto|].
  split; [intros Ho; destruct (H0 Ho); split; [rewrite upd_diff by congruence|]; auto|]. split; [auto|].
  rewrite Hs. destruct o as [v|].
  - eapply (map_upsert L1 a n L2); eauto.
  - eapply (map_remove L1 a n L2); eauto.
Qed.

(** ** Reads *)
Lemma ml_read_ok H s m key fu : ml_inv H s m -> mvalid key -> H + 1 <= fu ->
  ml_call oml fu (CRead key) s = Ok (RPayload (m key)) s.
Proof.
  intros (leafs & U & HT & HF & Hlk & H0 & HU & Hm) Hk Hfu.
  destruct s as [h root f l g]. cbn [hp rt fr lk gb] in *. subst l.
  destruct (ml_at_leaf _ _ _ _ _ _ key HT HF)
    as (L1 & a & n & L2 & d & HLe & Ha & Hr & Hwf & Hd & Hrep & HFe & HA & HB & Hin & Hok & Hassoc).
  cbn [ml_call]. destruct oml.
  - unfold oml_read. rewrite mb_getroot.
    bnd ltac:(eapply oml_search_read_ok; eauto; lia).
    bnd ltac:(eapply oml_leaf_ok; [apply HT|exact HF|intros x Hx; apply in_or_app; now left|lia]).
    rewrite Ha. rewrite (mb_getn a d) by auto. rewrite (mb_lift _ _ _ _ (M_read d n key Hrep Hin Hok Hk)).
    now rewrite <- Hm, Hassoc.
  - destruct (H0 eq_refl) as [H01 H02]. unfold pml_read. rewrite <- mb_assoc.
    bnd ltac:(eapply pml_search_read_ok; eauto; lia). rewrite Ha.
    rewrite (mb_getn a d) by auto. rewrite (mb_lift _ _ _ _ (M_read d n key Hrep Hin Hok Hk)).
    rewrite mb_unlock by (try congruence; lks). lkn.
    now rewrite <- Hm, Hassoc.
Qed.

(** ** Writes *)
Lemma roomat_get h a d : roomat h a -> h a = Some d -> mroom d.
Proof. intros (d' & H1 & H2) H3. congruence. Qed.

Lemma pml_op_ok H s m c fu : oml = false -> ml_inv H s m -> is_read c = false -> mvalid (call_key c) -> H + 1 <= fu ->
  exists s', (a <- pml_search_write fu (call_key c) ;; pml_leaf_op a (leafop c)) s =
               Ok (snd (spec_step m c)) s' /\
    ml_inv (S H) s' (fst (spec_step m c)).
Proof.
  intros Ho (leafs0 & U0 & HT0 & HF0 & Hlk & H00 & HU0 & Hm0) Hc Hk Hfu.
  destruct s as [h0 root0 f0 l g]. cbn [hp rt fr lk gb] in *. subst l. destruct (H00 Ho) as [H01 Hf0].
  destruct (pml_search_write_ok (call_key c) Hk leafs0 U0 root0 fu h0 f0 g HT0 HF0 H01 Hf0 ltac:(lia))
    as (leafs & U & h & root & f & E & HT & HF & H0 & Hf & Hrecs & HU & Hroom).
  bnd ltac:(exact E).
  assert (Hm : forall k, assoc k (recs leafs) = m k) by (intros k; now rewrite Hrecs).
  destruct (ml_at_leaf _ _ _ _ _ _ (call_key c) HT HF)
    as (L1 & a & n & L2 & d & -> & Ha & Hr & Hwf & Hd & Hrep & HFe & HA & HB & Hin & Hok & Hassoc).
  rewrite Ha in *. rewrite Hm in Hassoc.
  destruct (leafop_ok c m d n Hc Hrep Hin Hok Hk (roomat_get _ _ _ Hroom Hd) Hassoc)
    as (rc & d' & n' & Eop & Hrep' & Hret & Hcase).
  unfold pml_leaf_op. rewrite (mb_getn a d) by auto. rewrite (mb_lift _ _ _ _ Eop). cbv beta iota.
  rewrite mb_setn by congruence. rewrite mb_unlock; [|hget; congruence|lks]. lkn.
  rewrite Hret. eexists. split; [reflexivity|].
  destruct Hcase as [(-> & -> & _ & Hs)|(_ & extra & o & Hex & Hs & Hu)].
  - exists (L1 ++ (a, n) :: L2), U. cbn [hp rt fr lk gb]. split; [auto|].
    split. { eapply hinv_eq; [|eapply (hinv_set _ _ _ _ _ a n n); eauto]. fassoc. }
    split; [auto|]. split; [intros _; split; [rewrite upd_diff by congruence|]; auto|]. split; [lia|].
    intros k. rewrite Hs. apply Hm.
  - eapply leaf_final; eauto. lia.
Qed.

Lemma oml_smos_ok key d n h r f g a lo : h a = Some d -> mrep d n -> node_wf false false lo n ->
  mroom d -> mvalid key ->
  exists rc o n', oml_check_smos a (mn_reclen key) (St h r f [] g) = Ok rc (St (cleaned h a o) r f [] g) /\
    rc <> kNeedSplit /\ mrep (after d o) n' /\ refreshed n n' /\ mroom (after d o).
Proof.
  intros Hd Hr Hw Hrm Hk. pose proof (M_leaf_fits d n key Hr (nw_inner _ _ _ _ Hw) Hrm Hk) as Hf.
  destruct (M_need_merge d n Hr (wf_body _ _ _ Hw)) as (b & o & n' & Hs & A1 & A2 & A3).
  exists (if b then kNeedMerge else kCompleted), o, n'.
  split; [|split; [destruct b; discriminate|auto]].
  unfold oml_check_smos. rewrite (mb_getn a d) by auto. rewrite (mb_lift _ _ _ _ Hf). cbv beta iota.
  cbn [oml_clean]. rewrite mb_ret. rewrite (mb_getn a d) by auto. rewrite (mb_lift _ _ _ _ Hs). cbv beta iota.
  bnd ltac:(eapply oml_clean_ok; eauto). reflexivity.
Qed.


(** The leaf operation of the optimistic tree, from the state in which its leaf is known. *)
Lemma oml_tail_ok H c m L1 a n L2 U root h f g d : oml = true -> is_read c = false ->
  tree false (L1 ++ (a, n) :: L2) U root -> hinv h f g (L1 ++ (a, n) :: (L2 ++ concat U)) ->
  length U <= H -> node_wf false false (lasthi NegInf L1) n ->
  in_range (lasthi NegInf L1) (call_key c) (hi_ext n) ->
  h a = Some d -> mrep d n -> mroom d -> mvalid (call_key c) ->
  (forall k, assoc k (recs (L1 ++ (a, n) :: L2)) = m k) ->
  exists rc d', leafop c d = Some (rc, d') /\ rc_ret rc = snd (spec_step m c) /\
    ((rc <> kSuccess /\ ml_inv H (St h root f [] g) (fst (spec_step m c))) \/
     (rc = kSuccess /\ ml_inv H (St (upd h a (Some d')) root f [] g) (fst (spec_step m c)))).
Proof.
  intros Ho Hc HT HF HU Hwf Hr Hd Hrep Hrm Hk Hm.
  destruct (recs_mid _ _ _ _ _ _ (proj1 HT) Hr) as [HA HB].
  pose proof (recs_assoc _ _ _ _ _ _ (proj1 HT) Hr) as Hassoc. rewrite Hm in Hassoc.
  destruct (leafop_ok c m d n Hc Hrep (nw_inner _ _ _ _ Hwf) (nw_body _ _ _ _ Hwf) Hk Hrm Hassoc)
    as (rc & d' & n' & Eop & Hrep' & Hret & Hcase).
  exists rc, d'. split; [auto|]. split; [auto|].
  destruct Hcase as [(-> & -> & Hrc & Hs)|(Hrc & extra & o & Hex & Hs & Hu)].
  - left. split; [auto|]. exists (L1 ++ (a, n) :: L2), U. cbn [hp rt fr lk gb]. split; [auto|].
    split; [eapply hinv_eq; [|exact HF]; fassoc|]. split; [auto|]. split; [congruence|].
    split; [auto|]. intros k. rewrite Hs. apply Hm.
  - right. split; [auto|]. eapply leaf_final; eauto. congruence.
Qed.

Lemma oml_store_ok a rc d d' h r f g : h a = Some d ->
  oml_store a rc d' (St h r f [] g) =
    Ok (rc_ret rc) (match rc with kSuccess => St (upd h a (Some d')) r f [] g | _ => St h r f [] g end).
Proof.
  intros Hd. destruct rc; cbn [oml_store rc_ret]; try reflexivity.
  rewrite mb_lock; [|congruence|lks]. rewrite mb_setn by congruence.
  rewrite mb_unlock; [|hget; congruence|lks]. lkn. reflexivity.
Qed.

Lemma oml_op_ok H s m c fu : oml = true -> ml_inv H s m -> is_read c = false -> mvalid (call_key c) ->
  H + 1 <= fu ->
  exists s', ml_call true fu c s = Ok (snd (spec_step m c)) s' /\
    ml_inv (S H) s' (fst (spec_step m c)).
Proof.
  intros Ho (leafs0 & U0 & HT0 & HF0 & Hlk & H00 & HU0 & Hm0) Hc Hk Hfu.
  destruct s as [h0 root0 f0 l g0]. cbn [hp rt fr lk gb] in *. subst l.
  destruct (oml_search_write_ok (call_key c) Hk leafs0 U0 root0 fu h0 f0 g0 HT0 HF0 ltac:(lia))
    as (leafs & U & h & root & f & g & E & HT & HF & Hrecs & HU & Hroom).
  assert (Hm : forall k, assoc k (recs leafs) = m k) by (intros k; now rewrite Hrecs).
  pose proof (oml_leaf_ok (call_key c) fu leafs h root f g [] _ (proj1 HT) HF
                (fun x Hx => in_or_app _ _ _ (or_introl Hx)) ltac:(lia)) as Elf.
  destruct (ml_at_leaf _ _ _ _ _ _ (call_key c) HT HF)
    as (L1 & a & n & L2 & d & -> & Ha & Hr & Hwf & Hd & Hrep & HFe & HA & HB & Hin & Hok & Hassoc).
  rewrite Ha in *. pose proof (roomat_get _ _ _ Hroom Hd) as Hrm.
  destruct fu as [|fu']; [lia|].
  (* after CheckSMOs the leaf may have been cleaned up *)
  assert (Hsm : exists rc o n', oml_check_smos a (mn_reclen (call_key c)) (St h root f [] g) =
              Ok rc (St (cleaned h a o) root f [] g) /\ rc <> kNeedSplit /\
            tree false (L1 ++ (a, n') :: L2) U root /\
            hinv (cleaned h a o) f g (L1 ++ (a, n') :: (L2 ++ concat U)) /\
            node_wf false false (lasthi NegInf L1) n' /\
            in_range (lasthi NegInf L1) (call_key c) (hi_ext n') /\
            cleaned h a o a = Some (after d o) /\ mrep (after d o) n' /\ mroom (after d o) /\
            (forall k, assoc k (recs (L1 ++ (a, n') :: L2)) = m k)).
  { destruct (oml_smos_ok (call_key c) d n h root f g a (lasthi NegInf L1) Hd Hrep Hwf Hrm Hk)
      as (rc & o & n' & A1 & A2 & A3 & A4 & A5).
    exists rc, o, n'. split; [auto|]. split; [auto|].
    unfold refreshed in A4. rewrite Hin in A4.
    destruct (ml_leaf_set L1 a n n' L2 U root h f g (after d o) [] _ HT HFe Hwf A4) as (B1 & B2 & B3);
      [intros x []|auto|].
    destruct (node_wf_leaf_upd _ _ _ _ _ _ Hwf A4 ltac:(intros x [])) as (C1 & C2 & C3 & C4).
    split; [auto|]. split.
    { destruct o as [d1|]; cbn [cleaned after] in *.
      - eapply hinv_eq; [|exact B2]. fassoc.
      - eapply hinv_ext; [|eapply hinv_eq; [|exact B2]; fassoc]. intros x. unfold upd.
        destruct (Nat.eqb_spec x a); congruence. }
    split; [auto|]. split; [unfold hi_ext in *; now rewrite C3|].
    split; [destruct o; cbn [cleaned after]; [apply upd_same|auto]|]. split; [auto|]. split; [auto|].
    intros k. rewrite <- Hm, B3, (recs_mid_eq L1). reflexivity. }
  destruct c as [k|k v|k v|k v|k]; try discriminate; cbn [ml_call call_key] in *.
  - cbn [oml_write]. bnd ltac:(exact E). bnd ltac:(exact Elf).
    destruct Hsm as (rc & o & n' & D1 & D2 & D3 & D4 & D5 & D6 & D7 & D8 & D9 & D10).
    bnd ltac:(exact D1).
    destruct (oml_tail_ok (S H) (CWrite k v) m L1 a n' L2 U root _ f g (after d o) Ho eq_refl D3 D4
                ltac:(lia) D5 D6 D7 D8 D9 Hk D10) as (rc1 & d' & F1 & F2 & F3).
    cbn [leafop] in F1. destruct (mn_write (after d o) k v) as [dw|] eqn:Ew; [|discriminate].
    injection F1 as <- <-. destruct F3 as [[F3 _]|[_ F3]]; [congruence|].
    exists (St (upd (cleaned h a o) a (Some dw)) root f [] g). split; [|exact F3].
    assert (Et : (lock LSIX a ;;; (n0 <- getn a ;; (upgradeX a ;;; (n'0 <- mlift (mn_write n0 k v) ;;
                    (setn a n'0 ;;; (unlock LX a ;;; mret RSuccess))))))
              (St (cleaned h a o) root f [] g) = Ok RSuccess
              (St (upd (cleaned h a o) a (Some dw)) root f [] g)).
    { rewrite mb_lock; [|congruence|lks]. rewrite (mb_getn a (after d o)) by auto.
      rewrite mb_upgrade; [|congruence|lks|lks]. lkn. rewrite (mb_lift _ _ _ _ Ew).
      rewrite mb_setn by congruence. rewrite mb_unlock; [|hget; congruence|lks]. lkn. reflexivity. }
    destruct rc; try congruence; exact Et.
  - cbn [oml_insert]. bnd ltac:(exact E). bnd ltac:(exact Elf).
    destruct Hsm as (rc & o & n' & D1 & D2 & D3 & D4 & D5 & D6 & D7 & D8 & D9 & D10).
    bnd ltac:(exact D1).
    destruct (oml_tail_ok (S H) (CInsert k v) m L1 a n' L2 U root _ f g (after d o) Ho eq_refl D3 D4
                ltac:(lia) D5 D6 D7 D8 D9 Hk D10) as (rc1 & d' & F1 & F2 & F3).
    cbn [leafop] in F1.
    assert (Et : (n0 <- getn a ;; '(c, n'0) <- mlift (mn_insert n0 k v) ;; oml_store a c n'0)
              (St (cleaned h a o) root f [] g) = Ok (rc_ret rc1)
              (match rc1 with kSuccess => St (upd (cleaned h a o) a (Some d')) root f [] g
                            | _ => St (cleaned h a o) root f [] g end)).
    { rewrite (mb_getn a (after d o)) by auto. rewrite (mb_lift _ _ _ _ F1). cbv beta iota.
      eapply oml_store_ok; eauto. }
    rewrite <- F2. eexists. split; [destruct rc; try congruence; exact Et|].
    destruct F3 as [[F3 F4]|[-> F4]]; [|exact F4]. destruct rc1; try congruence; exact F4.
  - unfold oml_update. bnd ltac:(exact E). bnd ltac:(exact Elf).
    destruct (oml_tail_ok (S H) (CUpdate k v) m L1 a n L2 U root h f g d Ho eq_refl HT HFe
                ltac:(lia) Hwf Hr Hd Hrep Hrm Hk Hm) as (rc1 & d' & F1 & F2 & F3).
    cbn [leafop] in F1. rewrite (mb_getn a d) by auto. rewrite (mb_lift _ _ _ _ F1). cbv beta iota.
    rewrite (oml_store_ok a rc1 d d' h root f g Hd). rewrite <- F2. eexists. split; [reflexivity|].
    destruct F3 as [[F3 F4]|[-> F4]]; [|exact F4]. destruct rc1; try congruence; exact F4.
  - unfold oml_delete. bnd ltac:(exact E). bnd ltac:(exact Elf).
    destruct (oml_tail_ok (S H) (CDelete k) m L1 a n L2 U root h f g d Ho eq_refl HT HFe
                ltac:(lia) Hwf Hr Hd Hrep Hrm Hk Hm) as (rc1 & d' & F1 & F2 & F3).
    cbn [leafop] in F1. rewrite (mb_getn a d) by auto. rewrite (mb_lift _ _ _ _ F1). cbv beta iota.
    rewrite (oml_store_ok a rc1 d d' h root f g Hd). rewrite <- F2. eexists. split; [reflexivity|].
    destruct F3 as [[F3 F4]|[-> F4]]; [|exact F4]. destruct rc1; try congruence; exact F4.
Qed.

(** ** All calls *)
Lemma ml_call_ok H s m c fu : ml_inv H s m -> mvalid (call_key c) -> H + 1 <= fu ->
  exists s', ml_call oml fu c s = Ok (snd (spec_step m c)) s' /\
    ml_inv (S H) s' (fst (spec_step m c)).
Proof.
  intros Hi Hk Hfu. destruct (is_read c) eqn:Ec.
  - destruct c as [k| | | |]; try discriminate. exists s. cbn [spec_step fst snd call_key] in *.
    split; [eapply ml_read_ok; eauto|]. eapply ml_inv_mono; eauto. intros k'; reflexivity.
  - assert (Eo : oml = true \/ oml = false) by (destruct oml; auto). destruct Eo as [Eo|Eo].
    + destruct (oml_op_ok H s m c fu Eo Hi Ec Hk Hfu) as (s' & A & B).
      exists s'. now rewrite Eo at 1.
    + destruct (pml_op_ok H s m c fu Eo Hi Ec Hk Hfu) as (s' & A & B).
      exists s'. split; [|auto]. rewrite <- A, Eo. destruct c; try discriminate; reflexivity.
Qed.

Lemma ml_inv_init : leaked = [] -> ml_inv 0 ml_init amap_empty.
Proof.
  intros HW. exists [(1, ANode false false None None None [])], []. cbn [ml_init hp rt fr lk gb].
  split; [|split; [|split; [auto|split; [auto|auto]]]].
  - split; [|reflexivity]. split; [|split; [auto|reflexivity]].
    split; cbn; try (intros; tauto); auto; try discriminate.
    split; constructor.
  - unfold TreeHeap.hinv. rewrite HW. split.
    + cbn. constructor; [cbn; tauto | constructor].
    + intros a. cbn. destruct (Nat.eqb_spec a 1); split; intros; try congruence; auto.
      destruct H as [H|[]]. congruence.
    + intros a. cbn. destruct (Nat.eqb_spec a 1); intros H; [lia|congruence].
    + intros a n [Hin|[]]. inv Hin. cbn. eexists. split; [reflexivity|]. apply M_root0.
Qed.

Lemma ml_inv_gc H s m : ml_inv H s m -> ml_inv H (free_garbage s) m.
Proof.
  intros (leafs & U & A & B & C & D & E & F). exists leafs, U. cbn [free_garbage hp rt fr lk gb].
  split; [auto|]. split; [now apply hinv_gc|]. split; [auto|]. split; [|auto].
  intros Ho. destruct (D Ho) as [D1 D2]. split; [|auto]. destruct (existsb _ _); auto.
Qed.

Lemma ml_run_ok es : forall H s m fu, ml_inv H s m ->
  (forall c, In c (calls_of es) -> mvalid (call_key c)) -> H + length es + 3 <= fu ->
  exists s', ml_run oml fu es s = Ok (snd (spec_run m (calls_of es))) s' /\
    ml_inv (H + length es) s' (fst (spec_run m (calls_of es))).
Proof.
  induction es as [|[c|] es IH]; intros H s m fu Hi Hk Hfu; cbn [ml_run calls_of spec_run length].
  - exists s. split; [reflexivity|]. cbn. eapply ml_inv_mono; eauto; [lia|]. intros k; reflexivity.
  - cbn [calls_of length] in *. destruct (ml_call_ok H s m c fu Hi) as (s1 & H1 & H2); [apply Hk; now left|lia|].
    bnd ltac:(exact H1). destruct (spec_step m c) as [m1 r] eqn:Es. cbn [fst snd] in *.
    destruct (IH (S H) s1 m1 fu H2) as (s2 & H3 & H4); [intros; apply Hk; now right|lia|].
    bnd ltac:(exact H3). destruct (spec_run m1 (calls_of es)) as [m2 rs] eqn:Er. cbn [fst snd] in *.
    exists s2. split; [reflexivity|]. eapply ml_inv_mono; eauto; [lia|]. intros k; reflexivity.
  - cbn [calls_of length] in *. destruct (IH (S H) (free_garbage s) m fu) as (s2 & H3 & H4); auto; [|lia|].
    + apply ml_inv_gc. eapply ml_inv_mono; eauto. intros k; reflexivity.
    + exists s2. split; auto. eapply ml_inv_mono; eauto; [lia|]. intros k; reflexivity.
Qed.

End MLProofs.
