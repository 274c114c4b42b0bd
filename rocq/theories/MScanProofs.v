(** Scans of the pessimistic multi-layer tree: the invariant of the scanners.  Proof-side only. *)
From Coq Require Import List Arith Bool Lia Sorted.
From Verif Require Import Params Mem Common Spec ConcSpec ScanSpec NodeAbs SLIface BaseIface MLIface
  IterModel IterProofs TreeState Levels TreeHeap LevelOps SLModel SLSearch SLProofs MLModel MLSearch MLSteps
  ConcModel ConcLin ConcInv MConcModel MConcInv MConcSteps MConcMain CScanModel CScanLin CScanProofs MScanModel.
Import ListNotations.

Section MScanProofs.
Context {P : Params} {O : OrdLaws P} {N : MLOps P} {LW : MLLaws P N} (fx : bool).
#[local] Existing Instance base_of_ml.
#[local] Existing Instance base_laws_of_ml.
#[local] Existing Instance no_leak.
Notation hinv := (@hinv P no_leak mn mrep).
Notation minv := (minv fx).
Notation handled := (handled amap_empty).
Notation is_read := ConcModel.is_read.

(** ** One leaf *)
Definition mleafy (d : mn) (A : anode) : Prop :=
  mrep d A /\ a_inner A = false /\ leaf_ok (a_slots A).
Definition mvb (b : bound) : Prop := forall k c, b = Some (k, c) -> mvalid k.

Lemma leaf_recs_ok d A : mleafy d A -> forall m pos, pos + m <= length (a_slots A) ->
  leaf_recs d pos m = Some (live (firstn m (skipn pos (a_slots A)))).
Proof.
  intros (Hr & Hi & Hok). induction m as [|m IH]; intros pos Hm; cbn [leaf_recs firstn]; auto.
  destruct (nth_error_ex (a_slots A) pos) as [s Hs]; [lia|].
  destruct (M_record _ _ _ _ Hr Hi Hok Hs) as (Hd & _ & Hrec). rewrite Hd, IH by lia.
  rewrite (skipn_nth _ _ _ Hs). cbn [firstn live flat_map].
  destruct Hok as [Hsl _]. rewrite Forall_forall in Hsl.
  destruct (Hsl s (nth_error_In _ _ Hs)) as (k & v & Hk & Hv).
  unfold rec1. rewrite Hk, Hv. destruct (s_del s) eqn:Ed; [reflexivity|].
  rewrite (Hrec k v Hk Hv eq_refl). reflexivity.
Qed.

Lemma first_pos_ok d A kk : mleafy d A -> mvb kk ->
  exists pos, first_pos d kk = Some pos /\ live (skipn pos (a_slots A)) = fabove kk (live (a_slots A)).
Proof.
  intros (Hr & Hi & Hok) Hk. destruct kk as [[k c]|]; cbn [first_pos].
  - destruct (@start_ok P O (base_of_ml N) (base_laws_of_ml N LW) d A k c Hr Hi Hok (Hk k c eq_refl)) as (pos & E & Q & _).
    eauto.
  - exists 0. split; auto. cbn [skipn]. symmetry. now apply filter_all.
Qed.

Lemma nil_handled tr i0 lo hi Q : (forall k, above lo k -> ~ Q k) -> handled tr i0 lo hi Q [].
Proof.
  intros HQ. split; [constructor|]. split; [intros ? ? []|]. intros k Ha _ Hq _. now destruct (HQ k Ha).
Qed.

(** ** The invariant *)
Definition inleaf (d : mn) (k : K) : Prop := mn_comphigh d k = Some true.

(** Latches a scanner holds. *)
Definition qshl (p : qpc) : list addr :=
  match p with QR1 _ _ => [0] | QDesc _ _ a | QHold _ _ a _ _ => [a] | _ => [] end.

Definition qbounds (p : qpc) : option (bound * bound) :=
  match p with
  | QIdle => None
  | QR0 lo hi | QR1 lo hi | QDesc lo hi _ | QHold lo hi _ _ _ | QRet lo hi _ => Some (lo, hi)
  end.

Definition qbody (s : mcfg) (Ls : list lvl) (i0 : nat) (p : qpc) : Prop :=
  match p with
  | QIdle | QR0 _ _ | QR1 _ _ => True
  | QDesc lo _ a =>
      a <> 0 /\ a < mfr s /\
      ((fx = false /\ mch s a = None) \/
       (mch s a <> None /\ match lo with Some (key, _) => onp Ls key a | None => firstp Ls a end))
  | QHold lo hi a ie acc =>
      exists d, mch s a = Some d /\ mn_inner d = false /\
        if ie then handled (mtr s) i0 lo hi (fun _ => True) acc
        else mn_next d <> None /\ handled (mtr s) i0 lo hi (inleaf d) acc /\
             (forall k v, In (k, v) acc -> inleaf d k) /\
             (forall key c, lo = Some (key, c) -> inleaf d key)
  | QRet lo hi acc => handled (mtr s) i0 lo hi (fun _ => True) acc
  end.

Definition qpc_ok (s : mcfg) (Ls : list lvl) (T : list (marked label)) (u : tid) (p : qpc) : Prop :=
  match qbounds p with
  | None => True
  | Some (lo, hi) => mvb lo /\ mvb hi /\ exists i0, running T u lo hi i0 /\ qbody s Ls i0 p
  end.

Record qinv (s : qcfg) (Ls : list lvl) : Prop := {
  q_base : minv (qb s) Ls;
  q_log : mtr (qb s) = unmark (qlg s);
  q_right : trace_right amap_empty (qlg s);
  q_hold : forall u a, In u (qsh s a) <-> In a (qshl (qth s u));
  q_x : forall a, mxl (qb s) a = true -> qrd s a = false;
  q_scan : forall u, qpc_ok (qb s) Ls (qlg s) u (qth s u);
  q_q : forall u lo hi, In (lo, hi) (qq s u) -> mvb lo /\ mvb hi;
}.

Lemma qrd_in s u a : In u (qsh s a) -> qrd s a = true.
Proof. unfold qrd. destruct (qsh s a); [intros []|auto]. Qed.

(** ** Leaves in the tree *)
Section Leaf.
Variables (s : mcfg) (Ls : list lvl).
Hypothesis V : minv s Ls.
Let HT := v_tree _ _ _ V.
Let HF : hinv (mch s) (mfr s) [] (concat Ls) := v_heap _ _ _ V.

Lemma in_level a d : mch s a = Some d -> exists U L1 n L2 D, Ls = U ++ (L1 ++ (a, n) :: L2) :: D /\
  mrep d n /\ level false (innerb D) (L1 ++ (a, n) :: L2) /\ mn_inner d = innerb D.
Proof.
  intros E. assert (Ha : In a (map fst (concat Ls))).
  { assert (Hx : mch s a <> None) by congruence. apply (hi_dom _ _ _ _ _ HF) in Hx. cbn in Hx.
    now rewrite app_nil_r in Hx. }
  apply in_map_iff in Ha as ([a' n] & Q & Ha). cbn in Q. subst a'.
  destruct (hinv_get _ _ _ _ _ a n HF Ha) as (d' & E' & Hr). assert (d' = d) by congruence. subst d'.
  apply in_concat in Ha as (L & HL & Ha). apply in_split in HL as (U & D & EL).
  apply in_split in Ha as (L1 & L2 & ->). exists U, L1, n, L2, D. rewrite EL in HT.
  apply dtree_app in HT as (_ & HD & _). apply mdn_level in HD.
  split; [auto|]. split; [auto|]. split; [auto|]. destruct (seg_wf _ _ _ _ _ _ _ _ _ HD) as (Hw & _).
  rewrite (proj1 (M_hdr _ _ Hr)). apply Hw.
Qed.

(** The leaf [d] at [a] comes after the leaves [L1]. *)
Definition leaf_in (a : addr) (d : mn) (L1 : lvl) (n : anode) (L2 : lvl) : Prop :=
  (exists U, Ls = U ++ [L1 ++ (a, n) :: L2]) /\ mrep d n /\ level false false (L1 ++ (a, n) :: L2).

Lemma find_leaf a d : mch s a = Some d -> mn_inner d = false -> exists L1 n L2, leaf_in a d L1 n L2.
Proof.
  intros E Hi. destruct (in_level a d E) as (U & L1 & n & L2 & D & EL & Hr & Hl & Hd).
  rewrite Hi in Hd. destruct D; [|discriminate]. exists L1, n, L2. split; eauto.
Qed.

Lemma leaf_known a d L1 n L2 : leaf_in a d L1 n L2 ->
  mleafy d n /\ (a_high n = None <-> a_next n = None) /\ mn_next d = a_next n /\
  a_next n = first_addr L2 None /\
  (forall k h, In k (keys_of (a_slots n)) -> a_high n = Some h -> klt k h) /\
  (forall k, In k (keys_of (a_slots n)) -> in_range (lasthi NegInf L1) k (hi_ext n)) /\
  (forall k, inleaf d k <-> elt (Key k) (hi_ext n)) /\
  (forall k, in_range (lasthi NegInf L1) k (hi_ext n) ->
     assoc k (live (a_slots n)) = mapat amap_empty (mtr s) (length (mtr s)) k) /\
  ksorted (live (a_slots n)) /\ elt (lasthi NegInf L1) (hi_ext n).
Proof.
  intros ((U & EL) & Hr & Hl). destruct (seg_wf _ _ _ _ _ _ _ _ _ Hl) as (Hw & Hn & Hs).
  specialize (Hn (or_intror eq_refl)). pose proof (nw_body _ _ _ _ Hw) as Hok. cbn in Hok.
  destruct (M_hdr _ _ Hr) as (_ & _ & I3 & _).
  split; [split; [auto|split; [apply Hw|auto]]|]. split; [|split; [auto|split; [auto|]]].
  { rewrite Hn. destruct L2 as [|[b m] L2]; cbn [first_addr seg] in *.
    - unfold hi_ext in Hs. destruct (a_high n); [discriminate|tauto].
    - split; [|discriminate]. intros Q. destruct Hs as (Hw2 & _). pose proof (nw_range _ _ _ _ Hw2) as R.
      unfold hi_ext in R at 1. rewrite Q in R. destruct R. }
  split; [intros k h Hk Eh; pose proof (nw_hi _ _ _ _ Hw k Hk) as Q; unfold hi_ext in Q; now rewrite Eh in Q|].
  split; [intros k Hk; split; [exact (nw_lo _ _ _ _ Hw k Hk)|exact (nw_hi _ _ _ _ Hw k Hk)]|].
  split; [|split; [|split; [apply live_sorted, Hok|apply Hw]]].
  - intros k. unfold inleaf. rewrite (M_comphigh _ _ k Hr). unfold hi_ext.
    destruct (a_high n); cbn; unfold klt; split; congruence || tauto.
  - intros k Hk. unfold mapat. rewrite firstn_all. rewrite <- (v_map _ _ _ V k), EL, last_last.
    symmetry. eapply recs_assoc; eauto.
Qed.

Lemma leaf_uniq a d L1 n L2 L1' n' L2' : leaf_in a d L1 n L2 -> leaf_in a d L1' n' L2' -> L1 = L1' /\ n = n' /\ L2 = L2'.
Proof.
  intros ((U & EL) & _) ((U' & EL') & _). rewrite EL in EL'. apply app_inj_tail in EL' as (_ & E).
  assert (Hnd : NoDup (map fst (L1 ++ (a, n) :: L2))).
  { pose proof (hi_nodup _ _ _ _ _ HF) as Hn. cbn in Hn. rewrite app_nil_r in Hn. rewrite EL, concat_app, map_app in Hn.
    apply NoDup_app_r in Hn. cbn [concat] in Hn. now rewrite app_nil_r in Hn. }
  clear - E Hnd. revert L1' E. induction L1 as [|[x m] L1 IH]; intros [|[y m'] L1'] E; cbn in *.
  - injection E as -> ->. auto.
  - injection E as -> _ ->. inversion Hnd as [|? ? Q _]; subst. exfalso. apply Q. rewrite map_app. apply in_or_app.
    right. now left.
  - injection E as -> _ <-. inversion Hnd as [|? ? Q _]; subst. exfalso. apply Q. rewrite map_app. apply in_or_app.
    right. now left.
  - injection E as -> -> E. inversion Hnd; subst. destruct (IH H2 _ E) as (-> & -> & ->). auto.
Qed.

(** A scan latches a leaf. *)
Lemma arrive_ok lo hi a d L1 n L2 from acc i0 : mch s a = Some d -> mn_inner d = false -> leaf_in a d L1 n L2 ->
  i0 <= length (mtr s) -> mvb lo -> mvb hi ->
  (from = lo \/ from = None /\ forall k, ele (lasthi NegInf L1) (Key k) -> above lo k) ->
  (forall key c, lo = Some (key, c) -> inleaf d key) ->
  handled (mtr s) i0 lo hi (fun k => elt (Key k) (lasthi NegInf L1)) acc ->
  (forall k v, In (k, v) acc -> elt (Key k) (lasthi NegInf L1)) ->
  exists ie acc', arrive lo hi a d from acc = Some (QHold lo hi a ie acc') /\
    qbody s Ls i0 (QHold lo hi a ie acc').
Proof.
  intros E Hin Hlf Hi0 Vlo Vhi Hfrom Hkey Hacc Hlt.
  destruct (leaf_known a d L1 n L2 Hlf) as (HA & Hnx & Hnn & Hfa & Hhk & Hrng & Hil & Hc & Hss & Hlh).
  destruct (first_pos_ok d n from HA) as (pos & Ep & Hpos).
  { destruct Hfrom as [-> |[-> _]]; [auto|]. intros ? ? [=]. }
  pose proof HA as (Hr & Hi & Hok).
  destruct (M_endpos d n hi Hr Hi Hok Vhi) as (ie & e & Ee & Hes).
  destruct (endpos_window _ _ _ _ pos Hes Hok Hnx Hhk) as (W1 & W2 & W3 & W4).
  assert (Hrec : leaf_recs d pos (e - pos) = Some (fbelow hi (fabove from (live (a_slots n))))).
  { rewrite <- Hpos, <- W2. destruct (Nat.le_gt_cases pos e) as [Hq|Hq].
    - apply leaf_recs_ok; auto. lia.
    - replace (e - pos) with 0 by lia. reflexivity. }
  unfold arrive. rewrite Ep. cbn. rewrite Ee. cbn. rewrite Hrec. cbn.
  eexists ie, _. split; [reflexivity|]. cbn [qbody]. exists d. split; [auto|]. split; [auto|].
  set (R0 := fbelow hi (fabove from (live (a_slots n)))) in *.
  assert (HR : forall k v, In (k, v) R0 <-> In (k, v) (live (a_slots n)) /\ above from k /\ below hi k).
  { intros k v. unfold R0, fbelow, fabove. rewrite !filter_In. cbn [fst]. rewrite aboveb_ok, belowb_ok. tauto. }
  assert (Hab : forall k, ele (lasthi NegInf L1) (Key k) -> above from k <-> above lo k).
  { intros k Hk. destruct Hfrom as [-> |[-> Hf]]; [tauto|]. split; auto. cbn. auto. }
  assert (Hadd : forall Q' : K -> Prop, (forall k, below hi k -> Q' k -> inleaf d k) ->
            handled (mtr s) i0 lo hi Q' (acc ++ R0)).
  { intros Q' HQ. eapply handled_add; eauto.
    - unfold R0. now apply filter_sorted, filter_sorted.
    - intros k v Hk. apply HR in Hk as (K1 & K2 & K3).
      pose proof (live_key_in _ _ _ K1) as Kin. pose proof (Hrng k Kin) as Krng.
      split; [apply Hab; [apply Krng|auto]|]. split; [auto|]. exists (length (mtr s)). split; [lia|].
      rewrite <- Hc by auto. now apply assoc_in.
    - intros k v k' v' Hk Hk'. apply HR in Hk' as (K1 & _). apply live_key_in in K1.
      pose proof (elt_ele_trans _ _ _ (Hlt k v Hk) (proj1 (Hrng k' K1))) as Q. exact Q.
    - intros k Ha Hb Hq. destruct (elt_dec (Key k) (lasthi NegInf L1)) as [Hlo|Hlo]; [now left|right].
      assert (Hkr : in_range (lasthi NegInf L1) k (hi_ext n)).
      { split; auto. apply Hil. now apply HQ. }
      destruct (assoc k (live (a_slots n))) as [v|] eqn:Ek.
      + left. apply in_map_iff. exists (k, v). split; auto. apply HR.
        split; [now apply assoc_in|]. split; auto. now apply Hab.
      + right. exists (length (mtr s)). split; [lia|]. rewrite <- Hc; auto. }
  destruct ie.
  - apply Hadd. intros k Hb _. apply Hil. unfold hi_ext.
    destruct (a_high n) as [h|] eqn:Eh; [|exact Logic.I]. cbn. now apply W3.
  - destruct (W4 eq_refl) as (_ & W5). split; [congruence|]. split; [now apply Hadd|]. split; [|auto].
    intros k v Hk. apply Hil. apply in_app_or in Hk as [Hk|Hk].
    + eapply elt_trans; [eapply Hlt; eauto|]. exact Hlh.
    + apply HR in Hk as (K1 & _). apply Hrng. eapply live_key_in; eauto.
Qed.

(** The first child of the first page of a level. *)
Lemma first_child a d : firstp Ls a -> mch s a = Some d -> mn_inner d = true ->
  exists b db, mn_child d 0 = Some b /\ mch s b = Some db /\ firstp Ls b /\ parent Ls a b.
Proof.
  intros (L & HL & Hf) E Hi. apply in_split in HL as (U & D & EL).
  destruct L as [|[a' n] L2]; [discriminate|]. cbn in Hf. injection Hf as ->.
  assert (Hin : In (a, n) (concat Ls)).
  { rewrite EL, concat_app. cbn [concat]. rewrite !in_app_iff. right. left. now left. }
  destruct (hinv_get _ _ _ _ _ a n HF Hin) as (d' & E' & Hr). assert (d' = d) by congruence. subst d'.
  assert (HT2 := HT). rewrite EL in HT2. apply dtree_app in HT2 as (_ & HD & _).
  pose proof (mdn_level _ _ HD) as Hl. pose proof Hl as (Hw & _).
  assert (Hdi : innerb D = true) by (rewrite <- (nw_inner _ _ _ _ Hw); rewrite <- (proj1 (M_hdr _ _ Hr)); auto).
  destruct D as [|C D']; [discriminate|]. cbn [innerb] in *. destruct HD as (_ & H2 & _).
  pose proof (nw_body _ _ _ _ Hw) as Hb. cbn in Hb.
  destruct (a_slots n) as [|s0 t] eqn:Es; [destruct Hb|]. cbn [kents] in H2. rewrite Es in H2. cbn in H2.
  destruct C as [|[b m] C']; [discriminate|]. cbn [entries] in H2. injection H2 as Hk _.
  assert (Hinb : In (b, m) (concat Ls)).
  { rewrite EL, concat_app. cbn [concat]. rewrite !in_app_iff. right. right. left. now left. }
  destruct (hinv_get _ _ _ _ _ b m HF Hinb) as (db & Eb & _).
  exists b, db. split.
  - eapply (M_child d n 0 s0); [exact Hr|exact (nw_inner _ _ _ _ Hw)|now rewrite Es|].
    rewrite <- Hk. eapply inner_kid; [exact Hw|]. rewrite Es. now left.
  - split; [auto|]. split.
    + exists ((b, m) :: C'). split; [|reflexivity]. rewrite EL, in_app_iff. right. right. now left.
    + exists U, ((a, n) :: L2), ((b, m) :: C'), D', n. split; [auto|]. split; [now left|].
      rewrite Es. left. auto.
Qed.

(** The way down to the leaf of a key. *)
Lemma key_child a d k : mvalid k -> onp Ls k a -> mch s a = Some d -> mn_inner d = true ->
  exists pos b db, routep d k = Some (pos, b) /\ mch s b = Some db /\ onp Ls k b /\ parent Ls a b.
Proof.
  intros Hk Ho E Hi.
  destruct (at_ab _ _ _ _ _ _ _ HT HF Hk Ho E Hi) as (U & L1 & n & L2 & s1 & s0 & s2 & C1 & b & m & C2 & D & db &
    EL & CX & Hn & Hr & Hb & Hm & Hab & HF2).
  exists (length s1), b, db. split; [auto|]. split; [auto|]. split.
  - exists (C1 ++ (b, m) :: C2). split; [rewrite EL, in_app_iff; cbn; auto|]. eapply fnd_mid; apply CX.
  - exists U, (L1 ++ (a, n) :: L2), (C1 ++ (b, m) :: C2), D, n. split; [auto|].
    split; [apply in_or_app; right; now left|].
    rewrite (cx_sl _ _ _ _ _ _ _ _ _ _ _ _ _ CX), map_app. apply in_or_app. right. left.
    apply (cx_kid _ _ _ _ _ _ _ _ _ _ _ _ _ CX).
Qed.

(** Where the descent ends. *)
Lemma at_bottom lo a d : mch s a = Some d -> mn_inner d = false ->
  match lo with Some (key, _) => onp Ls key a | None => firstp Ls a end ->
  exists L1 n L2, leaf_in a d L1 n L2 /\ (forall (key : K) (c : bool), lo = Some (key, c) -> inleaf d key) /\
    forall k, above lo k -> ~ elt (Key k) (lasthi NegInf L1).
Proof.
  intros E Hi Hp. destruct lo as [[key c]|].
  - destruct (at_node _ _ _ _ _ _ HT HF Hp) as (U & L1 & n & L2 & D & d' & EL & Hl & Hr & Hd & Hrep & Hin & Hf & Hw).
    assert (d' = d) by congruence. subst d'. rewrite Hi in Hin. destruct D; [|discriminate]. cbn [innerb] in *.
    assert (HL : leaf_in a d L1 n L2) by (split; eauto). exists L1, n, L2. split; [auto|].
    destruct (leaf_known a d L1 n L2 HL) as (_ & _ & _ & _ & _ & _ & Hil & _).
    split; [intros ? ? [= <- <-]; apply Hil, Hr|].
    intros k Hk Hlt. apply (above_ge _ _ _ _ eq_refl) in Hk. apply kle_ele in Hk.
    eapply elt_irrefl. eapply elt_ele_trans; [exact Hlt|]. eapply ele_trans; [apply Hr|exact Hk].
  - destruct Hp as (L & HL & Hf). apply in_split in HL as (U & D & EL).
    destruct L as [|[a' n] L2]; [discriminate|]. cbn in Hf. injection Hf as ->.
    assert (Hin : In (a, n) (concat Ls)).
    { rewrite EL, concat_app. cbn [concat]. rewrite !in_app_iff. right. left. now left. }
    destruct (hinv_get _ _ _ _ _ a n HF Hin) as (d' & E' & Hr). assert (d' = d) by congruence. subst d'.
    assert (HT2 := HT). rewrite EL in HT2. apply dtree_app in HT2 as (_ & HD & _).
    pose proof (mdn_level _ _ HD) as Hl. pose proof Hl as (Hw & _).
    assert (Hdi : innerb D = false) by (rewrite <- (nw_inner _ _ _ _ Hw); rewrite <- (proj1 (M_hdr _ _ Hr)); auto).
    destruct D; [|discriminate]. exists [], n, L2. split; [split; [exists U; exact EL|auto]|].
    split; [discriminate|]. cbn. tauto.
Qed.

(** The next leaf. *)
Lemma next_leaf a d L1 n L2 b : leaf_in a d L1 n L2 -> mn_next d = Some b ->
  exists m L2' db, L2 = (b, m) :: L2' /\ mch s b = Some db /\ mn_inner db = false /\
    leaf_in b db (L1 ++ [(a, n)]) m L2' /\ lasthi NegInf (L1 ++ [(a, n)]) = hi_ext n.
Proof.
  intros HL Hb. destruct (leaf_known a d L1 n L2 HL) as (_ & _ & Hnn & Hfa & _).
  destruct L2 as [|[b' m] L2']; cbn in Hfa; [congruence|]. assert (b' = b) by congruence. subst b'.
  destruct HL as ((U & EL) & Hr & Hl). pose proof EL as EL'.
  replace (L1 ++ (a, n) :: (b, m) :: L2') with ((L1 ++ [(a, n)]) ++ (b, m) :: L2') in EL', Hl
    by (rewrite <- app_assoc; reflexivity).
  assert (Hin : In (b, m) (concat Ls)).
  { rewrite EL', concat_app. cbn [concat]. rewrite !in_app_iff. right. left. right. now left. }
  destruct (hinv_get _ _ _ _ _ b m HF Hin) as (db & Eb & Hrb).
  exists m, L2', db. split; [auto|]. split; [auto|].
  destruct (seg_wf _ _ _ _ _ _ _ _ _ Hl) as (Hw & _).
  split; [rewrite (proj1 (M_hdr _ _ Hrb)); apply Hw|]. split; [split; eauto|].
  rewrite lasthi_app. reflexivity.
Qed.
End Leaf.

(** ** Steps of callers *)
Section Caller.
Variables (s s' : mcfg) (Ls Ls' : list lvl) (l : label) (rd : addr -> bool) (M : list addr).
Hypothesis HS : stays fx rd s Ls s' Ls' M.
Hypothesis Htr : mtr s' = mtr s.
Hypothesis Hfr : forall a, mch s a <> None -> a < mfr s.

Lemma qbody_later i0 p : (forall a, In a (qshl p) -> rd a = true) ->
  qbody s Ls i0 p -> qbody (m_emit s' l) Ls' i0 p.
Proof.
  destruct HS as (S1 & S2 & S3 & S4 & S5).
  assert (Hkeep : forall a, a < mfr s -> rd a = true -> mch s a <> None ->
    (fx = false /\ mch s' a = None /\ pageP (mch s) a (fun n => mn_inner n = true)) \/ (~ In a M /\ mch s' a = mch s a)).
  { intros a Ha Hr Hn. destruct (in_dec Nat.eq_dec a M) as [Hi|Hi]; [left; now apply S5|right; auto]. }
  destruct p; cbn [qbody qshl m_emit mch mfr mtr]; auto; intros Hr.
  - intros (H0 & Hlt & Hp). split; [auto|]. split; [lia|].
    specialize (Hr a (or_introl eq_refl)).
    destruct Hp as [(Hfx & Hn)|(Hn & Hp)].
    + left. split; [auto|]. destruct (in_dec Nat.eq_dec a M) as [Hi|Hi]; [now apply S5|]. now rewrite S4.
    + destruct (Hkeep a Hlt Hr Hn) as [(Q1 & Q2 & _)|(Q1 & Q2)]; [left; auto|right].
      split; [congruence|]. destruct lo as [[key c]|]; [now apply S2|now apply S3].
  - intros (d & E & Hi & Hh). exists d. rewrite Htr.
    assert (Hd : mch s' a = Some d).
    { specialize (Hr a (or_introl eq_refl)). destruct (in_dec Nat.eq_dec a M) as [Hm|Hm].
      - destruct (S5 a Hm Hr) as (_ & _ & (d' & E' & Q)). congruence.
      - rewrite <- E. apply S4; auto. apply Hfr. congruence. }
    split; [auto|]. split; [auto|]. destruct ie; [now apply handled_later|].
    destruct Hh as (H1 & H2 & H3). split; [auto|]. split; [now apply handled_later|auto].
  - rewrite Htr. now apply handled_later.
Qed.
End Caller.

(** A step of a caller latches nothing in X mode that a scanner holds. *)
Lemma step_x rd t s l s' a : mstepr fx rd t s = KOk l s' -> mxl s' a = true -> mxl s a = true \/ rd a = false.
Proof.
  intros Hs. assert (HX : forall x, canX rd s x = true -> rd x = false).
  { intros x Hx. unfold canX in Hx. destruct (msh s x); [|discriminate]. now apply negb_true_iff. }
  assert (Hcl : forall x o, mxl (m_clean s x o) = mxl s) by (intros x [|]; reflexivity).
  unfold mstepr, kbind in Hs.
  repeat (match type of Hs with context [match ?x with _ => _ end] => destruct x eqn:? end; try discriminate);
    injection Hs as <- <-;
    cbn [m_goto m_lockS m_unlockS m_x m_root m_free m_own m_set m_new mxl]; rewrite ?Hcl; unfold supd;
    repeat match goal with |- context [if ?x then _ else _] => destruct x eqn:? end; auto; try discriminate;
    intros _; right;
    match goal with Q : Nat.eqb _ _ = true |- _ => apply Nat.eqb_eq in Q; subst end; eauto.
Qed.
Lemma step_tr rd t s l s' : mstepr fx rd t s = KOk l s' -> mtr s' = mtr s.
Proof.
  intros Hs. assert (Hcl : forall x o, mtr (m_clean s x o) = mtr s) by (intros x [|]; reflexivity).
  unfold mstepr, kbind in Hs.
  repeat (match type of Hs with context [match ?x with _ => _ end] => destruct x eqn:? end; try discriminate);
    injection Hs as <- <-;
    cbn [m_goto m_lockS m_unlockS m_x m_root m_free m_own m_set m_new mtr]; rewrite ?Hcl; auto.
Qed.

End MScanProofs.
