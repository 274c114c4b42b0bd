(** The concurrent optimistic multi-layer tree, as repaired ([fx = true]): its invariant.
    Proof-side only. *)
From Coq Require Import List Arith Bool Lia Sorted Permutation.
From Verif Require Import Params Mem Common Spec NodeAbs SLIface MLIface TreeState Levels TreeHeap
  LevelOps SLModel SLSearch SLSplit SLMerge SLProofs MLModel MLSearch MLSteps ConcSpec ConcModel ConcLin
  MConcModel MConcInv MConcSteps MConcMain OLaws OConcModel.
Import ListNotations.

Section OConcInv.
Context {P : Params} {O : OrdLaws P} {N : MLOps P} {LW : MLLaws P N} {OW : OMLaws P N LW}.
#[local] Existing Instance no_leak.
Notation hinv := (@hinv P no_leak mn mrep).
Notation is_read := ConcModel.is_read.

(** Children, and the pages a thread may go to from a node. *)
Definition kidm (n : mn) (y : addr) : Prop := exists i, i < mn_rc n /\ mn_child n i = Some y.
Definition linked (n : mn) (y : addr) : Prop :=
  if mn_inner n then mn_removed n = false /\ kidm n y else mn_next n = Some y.

(** Latches of a program counter; the node whose parent entry is still to be changed; the
    node that has been removed and is not yet retired. *)
Definition sxo (p : opc) : list addr :=
  match p with
  | OSpB _ a _ _ _ _ | OSpC _ a _ _ _ _ _ | OMgB _ a _ _ _ _ | OMg3 _ a _ _ _ _ => [a]
  | OMgC _ a b _ _ => [a; b]
  | OMg1 _ a b r _ => [a; b; r]
  | OMg2 _ a _ r _ _ => [a; r]
  | OShr1 _ a => [a]
  | _ => []
  end.
Definition pnd (p : opc) : list addr :=
  match p with OSpC _ a _ _ _ _ _ | OMg3 _ a _ _ _ _ => [a] | _ => [] end.
Definition lim (p : opc) : list addr :=
  match p with OMg3 _ _ _ r _ _ => [r] | _ => [] end.

Lemma pnd_sxo p x : In x (pnd p) -> In x (sxo p).
Proof. destruct p; cbn; tauto. Qed.

Definition lorel (lo : addr -> ext) (Ls : list lvl) : Prop :=
  forall L e a, In L Ls -> In (e, a) (entries NegInf L) -> lo a = e.

(** What a thread may rely on when it looks at a page, alive or not. *)
Definition okp (h : addr -> option mn) (lo : addr -> ext) (a : addr) (n : mn) : Prop :=
  if mn_removed n then
    mn_inner n = false ->
    (exists an, mrep n an /\ a_inner an = false /\ leaf_ok (a_slots an)) /\
    exists b nb, mn_next n = Some b /\ h b = Some nb /\ mn_inner nb = false /\ elt (lo b) (lo a)
  else
    (exists an, mrep n an /\ body_ok (a_inner an) (a_slots an)) /\
    if mn_inner n then
      (exists b, mn_child n 0 = Some b /\ kidm n b /\ h b <> None /\ lo b = lo a) /\
      forall k, mvalid k -> ele (lo a) (Key k) -> mn_comphigh n k = Some true ->
      exists pos b, routep n k = Some (pos, b) /\ kidm n b /\ h b <> None /\ ele (lo b) (Key k)
    else
      forall k, ele (lo a) (Key k) -> mn_comphigh n k = Some false ->
      exists b nb, mn_next n = Some b /\ h b = Some nb /\ mn_inner nb = false /\ ele (lo b) (Key k).

(** ** Facts about trees *)
Section Tree.
Context (Ls : list lvl) (root : addr) (hv : addr -> option mn) (f : addr) (lo : addr -> ext).
Context (HT : dtree Ls root) (HF : hinv hv f [] (concat Ls)) (HL : lorel lo Ls).

Lemma alive_at a d : hv a = Some d ->
  exists U L1 n L2 D, Ls = U ++ (L1 ++ (a, n) :: L2) :: D /\ mrep d n /\
    lo a = lasthi NegInf L1 /\ level false (innerb D) (L1 ++ (a, n) :: L2) /\
    node_wf false (innerb D) (lasthi NegInf L1) n /\ mn_inner d = innerb D.
Proof.
  intros Hd. assert (Hin : In a (map fst (concat Ls) ++ [])).
  { apply (hi_dom _ _ _ _ _ HF). congruence. }
  rewrite app_nil_r in Hin. apply in_map_iff in Hin as ((a', n) & <- & Hin). cbn [fst] in *.
  destruct (hinv_get _ _ _ _ _ a' n HF Hin) as (d' & Hd' & Hrep). assert (d' = d) by congruence. subst d'.
  apply in_concat in Hin as (L & HLs & Hin). apply in_split in HLs as (U & D & EL).
  apply in_split in Hin as (L1 & L2 & ->). exists U, L1, n, L2, D.
  pose proof HT as HT'. rewrite EL in HT'. apply dtree_app in HT' as (_ & HD & _). apply mdn_level in HD.
  destruct (seg_wf _ _ _ _ _ _ _ _ _ HD) as (Hw & _).
  split; [auto|]. split; [auto|]. split.
  { eapply HL; [rewrite EL; apply in_or_app; right; now left|]. rewrite entries_app. cbn [entries].
    apply in_or_app. right. now left. }
  split; [auto|]. split; [auto|]. now rewrite (proj1 (M_hdr _ _ Hrep)), (nw_inner _ _ _ _ Hw).
Qed.

Lemma comphigh_range d n k b : mrep d n -> mn_comphigh d k = Some b ->
  if b then elt (Key k) (hi_ext n) else ele (hi_ext n) (Key k).
Proof.
  intros Hr Hc. rewrite (M_comphigh _ _ k Hr) in Hc. injection Hc as <-. unfold hi_ext.
  destruct (a_high n) as [x|]; [|exact Logic.I].
  destruct (ltb k x) eqn:E; cbn; [exact E|].
  unfold klt. congruence.
Qed.

Lemma alive_onp a d k : hv a = Some d -> ele (lo a) (Key k) -> mn_comphigh d k = Some true -> onp Ls k a.
Proof.
  intros Hd Hlo Hc. destruct (alive_at a d Hd) as (U & L1 & n & L2 & D & EL & Hrep & Elo & Hlv & Hw & _).
  rewrite EL. apply onp_app. eapply fnd_mid; [exact Hlv|]. rewrite <- Elo. split; [auto|].
  exact (comphigh_range _ _ _ _ Hrep Hc).
Qed.

Lemma alive_not_removed a d : hv a = Some d -> mn_removed d = false.
Proof.
  intros Hd. destruct (alive_at a d Hd) as (U & L1 & n & L2 & D & EL & Hrep & Elo & Hlv & Hw & _).
  rewrite (proj1 (proj2 (M_hdr _ _ Hrep))). apply Hw.
Qed.

Lemma alive_body a d : hv a = Some d -> exists an, mrep d an /\ body_ok (a_inner an) (a_slots an).
Proof.
  intros Hd. destruct (alive_at a d Hd) as (U & L1 & n & L2 & D & EL & Hrep & Elo & Hlv & Hw & _).
  exists n. split; [auto|]. rewrite (nw_inner _ _ _ _ Hw). apply Hw.
Qed.

Lemma in_tree a : In a (map fst (concat Ls)) <-> hv a <> None.
Proof. rewrite (hi_dom _ _ _ _ _ HF). now rewrite app_nil_r. Qed.

Lemma nodup_ls : NoDup (map fst (concat Ls)).
Proof. pose proof (hi_nodup _ _ _ _ _ HF) as H. eapply NoDup_app_l. exact H. Qed.

Lemma kidm_slot d n y : mrep d n -> a_inner n = true -> inner_ok (a_slots n) ->
  kidm d y <-> In y (map kid (a_slots n)).
Proof.
  intros Hrep Hin Hok. unfold kidm. rewrite (proj2 (proj2 (proj2 (M_hdr _ _ Hrep)))).
  assert (Hpay : forall s, In s (a_slots n) -> s_pay s = PP (kid s)).
  { intros s Hs. unfold inner_ok in Hok. unfold kid. destruct (a_slots n) as [|s0 tl0]; [destruct Hs|].
    destruct Hok as ((_ & c & Hc) & Hb & _). destruct Hs as [->|Hs].
    - now rewrite Hc.
    - rewrite Forall_forall in Hb. destruct (Hb s Hs) as (_ & k1 & c1 & _ & Hc1). now rewrite Hc1. }
  split.
  - intros (i & Hi & Hc). destruct (nth_error (a_slots n) i) as [s|] eqn:E.
    + pose proof (nth_error_In _ _ E) as Hs. rewrite (M_child _ _ _ _ _ Hrep Hin E (Hpay s Hs)) in Hc.
      injection Hc as <-. now apply in_map.
    + apply nth_error_None in E. lia.
  - intros H. apply in_map_iff in H as (s & <- & Hs). apply In_nth_error in Hs as (i & E).
    exists i. split; [apply nth_error_Some; congruence|].
    apply (M_child _ _ _ _ _ Hrep Hin E). apply Hpay. eapply nth_error_In; eauto.
Qed.

Lemma kid_parent a d y : hv a = Some d -> mn_inner d = true -> kidm d y -> parent Ls a y.
Proof.
  intros Hd Hi Hk. destruct (alive_at a d Hd) as (U & L1 & n & L2 & D & EL & Hrep & Elo & Hlv & Hw & Ei).
  rewrite Hi in Ei. destruct D as [|C D]; [discriminate|]. cbn [innerb] in *.
  exists U, (L1 ++ (a, n) :: L2), C, D, n. split; [auto|]. split; [apply in_elt|].
  apply (kidm_slot d n y); auto; apply Hw.
Qed.

Lemma parent_alive a y : parent Ls a y -> hv y <> None.
Proof.
  intros (U & L & C & D & n & EL & Ha & Hy). apply in_tree.
  pose proof HT as HT'. rewrite EL in HT'.
  assert (Hyc : In y (map fst C)).
  { rewrite <- (kids_level _ _ _ _ _ HT'). apply in_flat_map. exists (a, n). auto. }
  rewrite EL, concat_app. cbn [concat]. rewrite !map_app, !in_app_iff. auto.
Qed.

Lemma kid_alive a d y : hv a = Some d -> mn_inner d = true -> kidm d y -> hv y <> None.
Proof. intros Hd Hi Hk. eapply parent_alive, kid_parent; eauto. Qed.

Lemma kid_uniq a d a' d' y : hv a = Some d -> mn_inner d = true -> kidm d y ->
  hv a' = Some d' -> mn_inner d' = true -> kidm d' y -> a = a'.
Proof.
  intros. eapply (parent_uniq Ls root HT nodup_ls); eapply kid_parent; eauto.
Qed.

Lemma leaf_next a d y : hv a = Some d -> mn_inner d = false -> mn_next d = Some y ->
  exists dy n, mrep d n /\ hv y = Some dy /\ mn_inner dy = false /\ lo y = hi_ext n.
Proof.
  intros Hd Hi Hn. destruct (alive_at a d Hd) as (U & L1 & n & L2 & D & EL & Hrep & Elo & Hlv & Hw & Ei).
  rewrite Hi in Ei. destruct D; [|discriminate]. cbn [innerb] in *.
  destruct (seg_wf _ _ _ _ _ _ _ _ _ Hlv) as (_ & Hnx & Hs). rewrite (proj1 (proj2 (proj2 (M_hdr _ _ Hrep)))), Hnx in Hn by auto.
  destruct L2 as [|[y' m] L2]; cbn in Hn; [discriminate|]. injection Hn as ->.
  destruct (hinv_get _ _ _ _ _ y m HF) as (dy & Hdy & Hry).
  { rewrite EL, concat_app. cbn [concat]. rewrite !in_app_iff. right. left. right. right. now left. }
  exists dy, n. split; [auto|]. split; [auto|]. split.
  - destruct Hs as (Hwy & _). now rewrite (proj1 (M_hdr _ _ Hry)), (nw_inner _ _ _ _ Hwy).
  - eapply HL; [rewrite EL; apply in_or_app; right; now left|]. rewrite entries_app. cbn [entries].
    apply in_or_app. right. right. now left.
Qed.

Lemma leaf_high a d k : hv a = Some d -> mn_inner d = false -> mn_comphigh d k = Some false ->
  exists y, mn_next d = Some y.
Proof.
  intros Hd Hi Hc. destruct (alive_at a d Hd) as (U & L1 & n & L2 & D & EL & Hrep & Elo & Hlv & Hw & Ei).
  rewrite Hi in Ei. destruct D; [|discriminate]. cbn [innerb] in *.
  destruct (seg_wf _ _ _ _ _ _ _ _ _ Hlv) as (_ & Hnx & Hs). rewrite (proj1 (proj2 (proj2 (M_hdr _ _ Hrep)))), Hnx by auto.
  destruct L2 as [|[y' m] L2]; cbn; eauto. exfalso. cbn in Hs.
  pose proof (comphigh_range _ _ _ _ Hrep Hc) as Hr. rewrite Hs in Hr. apply Hr. exact Logic.I.
Qed.

Lemma route_kid d n k pos b : mrep d n -> a_inner n = true -> inner_ok (a_slots n) ->
  routep d k = Some (pos, b) -> pos < mn_rc d -> kidm d b.
Proof.
  intros _ _ _ Hr Hp. exists pos. split; [auto|]. unfold routep in Hr.
  destruct (mn_search d k) as [[rc p]|]; [|discriminate].
  destruct (mn_child d p) eqn:E; [|discriminate]. now inv Hr.
Qed.

Lemma alive_route a d k : hv a = Some d -> mn_inner d = true -> mvalid k -> ele (lo a) (Key k) ->
  mn_comphigh d k = Some true ->
  exists pos b, routep d k = Some (pos, b) /\ kidm d b /\ hv b <> None /\ ele (lo b) (Key k).
Proof.
  intros Hd Hi Hk Hlo Hc.
  destruct (at_ab _ _ _ _ _ _ _ HT HF Hk (alive_onp _ _ _ Hd Hlo Hc) Hd Hi) as
    (U & L1 & n & L2 & s1 & s & s2 & C1 & b & m & C2 & D & db & EL & CX & Hn & Er & Hdb & Hmb & Hab & HF2).
  exists (length s1), b. split; [auto|]. split; [|split; [congruence|]].
  - destruct (cx_wp _ _ _ _ _ _ _ _ _ _ _ _ _ CX) as [W1 _ W3 _ _ _ _ _].
    eapply route_kid; eauto.
    rewrite (proj2 (proj2 (proj2 (M_hdr _ _ Hn)))), (cx_sl _ _ _ _ _ _ _ _ _ _ _ _ _ CX), app_length. cbn. lia.
  - assert (E : lo b = lasthi NegInf C1).
    { apply (HL (C1 ++ (b, m) :: C2)).
      - rewrite EL. apply in_or_app. right. right. now left.
      - rewrite entries_app. cbn [entries]. apply in_or_app. right. now left. }
    rewrite E. apply CX.
Qed.

Lemma alive_first a d : hv a = Some d -> mn_inner d = true ->
  exists b, mn_child d 0 = Some b /\ kidm d b /\ hv b <> None /\ lo b = lo a.
Proof.
  intros Hd Hi. destruct (alive_at a d Hd) as (U & L1 & n & L2 & D & EL & Hrep & Elo & Hlv & Hw & Ei).
  rewrite Hi in Ei. destruct D as [|C D]; [discriminate|]. cbn [innerb] in *.
  pose proof (nw_body _ _ _ _ Hw) as Hok. cbn in Hok. pose proof (nw_inner _ _ _ _ Hw) as Hin.
  destruct (a_slots n) as [|z sl] eqn:Es; [destruct Hok|].
  assert (Hz : s_pay z = PP (kid z)).
  { destruct Hok as ((_ & x & Hx) & _). unfold kid. now rewrite Hx. }
  assert (Hc : mn_child d 0 = Some (kid z)).
  { eapply (M_child d n 0 z); eauto. now rewrite Es. }
  assert (Hk : kidm d (kid z)).
  { exists 0. split; [|exact Hc]. rewrite (proj2 (proj2 (proj2 (M_hdr _ _ Hrep)))), Es. cbn. lia. }
  exists (kid z). split; [auto|]. split; [auto|]. split; [eapply kid_alive; eauto|].
  pose proof HT as HT'. rewrite EL in HT'. apply dtree_app in HT' as (_ & (_ & HK & _) & _).
  rewrite Elo. apply (HL C); [rewrite EL; apply in_or_app; right; right; now left|].
  rewrite <- HK, kents_app. apply in_or_app. right. cbn [kents]. rewrite Es. cbn [sents app]. now left.
Qed.

Lemma okp_alive h a d : (forall x m, hv x = Some m -> exists n, h x = Some n /\ mn_inner n = mn_inner m) ->
  hv a = Some d -> okp h lo a d.
Proof.
  intros Hh Hd. unfold okp. rewrite (alive_not_removed a d Hd). split; [now apply (alive_body a)|].
  destruct (mn_inner d) eqn:Ei.
  - split.
    { destruct (alive_first a d Hd Ei) as (b & E1 & E2 & E3 & E4). exists b. split; [auto|]. split; [auto|].
      split; [|auto]. destruct (hv b) as [m|] eqn:Eb; [|congruence]. destruct (Hh b m Eb) as (n & En & _). congruence. }
    intros k Hk Hlo Hc. destruct (alive_route a d k Hd Ei Hk Hlo Hc) as (pos & b & E1 & E2 & E3 & E4).
    exists pos, b. split; [auto|]. split; [auto|]. split; [|auto].
    destruct (hv b) as [m|] eqn:Eb; [|congruence]. destruct (Hh b m Eb) as (n & En & _). congruence.
  - intros k Hlo Hc. destruct (leaf_high a d k Hd Ei Hc) as (y & Hy).
    destruct (leaf_next a d y Hd Ei Hy) as (dy & n & Hrep & Hdy & Eiy & El).
    destruct (Hh y dy Hdy) as (ny & Eny & Ein). exists y, ny. split; [auto|]. split; [auto|].
    split; [congruence|]. rewrite El. exact (comphigh_range _ _ _ _ Hrep Hc).
Qed.

Lemma root_alive : exists d, hv root = Some d /\ lo root = NegInf.
Proof.
  destruct (root_dom _ _ _ _ HT HF) as (nr & D & d & EL & _ & Hd & _).
  exists d. split; [auto|]. eapply HL; [rewrite EL; now left|]. now left.
Qed.

Lemma root_not_kid a d : hv a = Some d -> mn_inner d = true -> ~ kidm d root.
Proof.
  intros Hd Hi Hk. pose proof (kid_parent a d root Hd Hi Hk) as Hp.
  pose proof (parent_hgt Ls root HT nodup_ls a root Hp) as E.
  destruct (root_dom _ _ _ _ HT HF) as (nr & D & d' & EL & _).
  pose proof (hgt_le Ls a) as Hle.
  assert (Er : hgt Ls root = length Ls).
  { rewrite EL. cbn [hgt map fst length]. destruct (in_dec _ _ _) as [|Hn]; [auto|]. exfalso. apply Hn. now left. }
  lia.
Qed.

End Tree.

(** ** Program counters *)
Definition holds (gb : addr -> option (list tid)) (t : tid) (a : addr) : Prop :=
  forall w, gb a = Some w -> In t w.

Definition here (s : ocfg) (lo : addr -> ext) (t : tid) (k : K) (a : addr) : Prop :=
  och s a <> None /\ ele (lo a) (Key k) /\ holds (ogb s) t a.
(** The page has not been removed and is as described, now / as long as its version is [v]. *)
Definition now (s : ocfg) (Q : mn -> Prop) (a : addr) : Prop :=
  exists n, och s a = Some n /\ mn_removed n = false /\ Q n.
Definition vf (s : ocfg) (Q : mn -> Prop) (a : addr) (v : nat) : Prop :=
  v <= ovs s a /\ (ovs s a = v -> now s Q a).
Definition rt (k : K) (b : addr) (pos : nat) (n : mn) : Prop :=
  mroom n /\ mn_inner n = true /\ mn_comphigh n k = Some true /\ routep n k = Some (pos, b).

Definition pcok (s : ocfg) (hv : addr -> option mn) (lo : addr -> ext) (t : tid) (p : opc) : Prop :=
  let at_ c a := wrc c /\ here s lo t (call_key c) a in
  let ab c a v b pos := wrc c /\ here s lo t (call_key c) a /\ here s lo t (call_key c) b /\
                        vf s (rt (call_key c) b pos) a v in
  let abn c a b pos := wrc c /\ here s lo t (call_key c) a /\ here s lo t (call_key c) b /\
                       now s (rt (call_key c) b pos) a in
  match p with
  | OIdle | ORet _ => True
  | ORoot c => rdc c
  | ORd c a => rdc c /\ here s lo t (call_key c) a
  | OWRoot c => wrc c
  | OWSt c a => at_ c a
  | OWRs c a v => at_ c a /\ vf s msplit_ok a v
  | OWSh c a v => at_ c a /\ vf s mroom a v
  | OShr1 _ _ | OShr2 _ _ | OMg2 _ _ _ _ _ _ => False
  | OWd c a v => at_ c a /\ vf s mroom a v
  | OWc c a v b pos => ab c a v b pos
  | OSpA c a v b w pos => ab c a v b pos /\ vf s msplit_ok b w
  | OSpB c a v b w pos => abn c a b pos /\ ovs s a = v /\ vf s msplit_ok b w
  | OSpC c a r sep pos x w =>
      at_ c x /\ vf s mroom x w /\
      exists pn pn', och s a = Some pn /\ mn_removed pn = false /\ mn_inner pn = true /\
        mn_insert_child pn r sep pos = Some pn' /\ hv a = Some pn' /\ mn_inner pn' = true /\
        (forall y, kidm pn y -> kidm pn' y)
  | OMgA c a v b w pos => ab c a v b pos /\ vf s mroom b w
  | OMgB c a v b w pos => abn c a b pos /\ ovs s a = v /\ vf s mroom b w
  | OMgC c a b w pos => abn c a b pos /\ ovs s b = w /\ now s mroom b
  | OMg1 c a b r pos =>
      abn c a b pos /\ now s (fun n => mn_child n (pos + 1) = Some r /\ pos + 1 <> mn_rc n) a /\
      exists nb nr, och s b = Some nb /\ mn_removed nb = false /\ och s r = Some nr /\
        mn_removed nr = false /\ mn_can_merge nb nr = true
  | OMg3 c a b r w pos =>
      at_ c b /\ vf s mroom b w /\
      (exists pn pn', och s a = Some pn /\ mn_removed pn = false /\ mn_inner pn = true /\
        mn_delete_child pn pos = Some pn' /\ hv a = Some pn' /\ mn_inner pn' = true /\
        (forall y, kidm pn y -> kidm pn' y \/ y = r) /\ kidm pn' b) /\
      exists rn, och s r = Some rn /\ mn_removed rn = true /\ (mn_inner rn = false -> mn_next rn = Some b)
  | OWl c a => at_ c a /\ exists n, och s a = Some n /\ mn_inner n = false
  end.

(** What one step of [t] leaves to the others. *)
Record frame (s s' : ocfg) (hv hv' : addr -> option mn) (lo lo' : addr -> ext) (t : tid) : Prop := {
  fr_pg : forall x n, och s x = Some n ->
    (och s' x = Some n /\ ovs s' x = ovs s x) \/
    (ovs s' x = S (ovs s x) /\ mn_removed n = false /\ (osx s x = None \/ osx s x = Some t) /\
     exists n', och s' x = Some n' /\ mn_inner n' = mn_inner n);
  fr_lo : forall x, och s x <> None -> lo' x = lo x;
  fr_hv : forall x u, osx s x = Some u -> u <> t -> hv' x = hv x;
  fr_gb : forall u x, u <> t -> In u (oac s) -> holds (ogb s) u x -> holds (ogb s') u x;
}.

Section Frame.
Context (s s' : ocfg) (hv hv' : addr -> option mn) (lo lo' : addr -> ext) (t u : tid).
Context (F : frame s s' hv hv' lo lo' t) (Hu : u <> t).

Lemma fr_present x : och s x <> None -> och s' x <> None.
Proof.
  intros H. destruct (och s x) as [n|] eqn:E; [|congruence].
  destruct (fr_pg _ _ _ _ _ _ _ F x n E) as [[? _]|(_ & _ & _ & n' & ? & _)]; congruence.
Qed.

Lemma fr_inner x n : och s x = Some n -> exists n', och s' x = Some n' /\ mn_inner n' = mn_inner n.
Proof.
  intros E. destruct (fr_pg _ _ _ _ _ _ _ F x n E) as [[? _]|(_ & _ & _ & n' & ? & ?)]; eauto.
Qed.

Lemma fr_here k a : In u (oac s) -> here s lo u k a -> here s' lo' u k a.
Proof.
  intros Ha (H1 & H2 & H3). split; [now apply fr_present|]. split.
  - rewrite (fr_lo _ _ _ _ _ _ _ F) by auto. exact H2.
  - now apply (fr_gb _ _ _ _ _ _ _ F).
Qed.

Lemma fr_vf Q a v : och s a <> None -> vf s Q a v -> vf s' Q a v.
Proof.
  intros Hp (H1 & H2). destruct (och s a) as [n|] eqn:E; [|congruence].
  destruct (fr_pg _ _ _ _ _ _ _ F a n E) as [[E1 E2]|(E1 & _)].
  - split; [lia|]. rewrite E2. intros Q1. destruct (H2 Q1) as (m & M1 & M2). exists m. split; [congruence|auto].
  - split; [lia|]. intros E2. lia.
Qed.

Lemma fr_owned a n : osx s a = Some u -> och s a = Some n -> och s' a = Some n /\ ovs s' a = ovs s a.
Proof.
  intros Ho E. destruct (fr_pg _ _ _ _ _ _ _ F a n E) as [?|(_ & _ & [?|?] & _)]; [auto|congruence|congruence].
Qed.

Lemma fr_now Q a : osx s a = Some u -> now s Q a -> now s' Q a.
Proof. intros Ho (n & E & H). exists n. split; [now apply fr_owned|auto]. Qed.

Lemma fr_dead r n : och s r = Some n -> mn_removed n = true -> och s' r = Some n.
Proof.
  intros E Hr. destruct (fr_pg _ _ _ _ _ _ _ F r n E) as [[? _]|(_ & ? & _)]; [auto|congruence].
Qed.

Lemma pcok_stable p : (p <> OIdle -> In u (oac s)) -> (forall x, In x (sxo p) -> osx s x = Some u) ->
  pcok s hv lo u p -> pcok s' hv' lo' u p.
Proof.
  intros Ha Ho.
  assert (HV : forall x, In x (sxo p) -> hv' x = hv x).
  { intros x Hx. apply (fr_hv _ _ _ _ _ _ _ F x u); auto. }
  destruct p; cbn [pcok sxo In] in *; auto; try tauto; specialize (Ha ltac:(discriminate)).
  - intros (H1 & H2). split; [auto|now apply fr_here].
  - intros (H1 & H2). split; [auto|now apply fr_here].
  - intros ((H1 & H2) & H3). split; [split; [auto|now apply fr_here]|]. apply fr_vf; [apply H2|auto].
  - intros ((H1 & H2) & H3). split; [split; [auto|now apply fr_here]|]. apply fr_vf; [apply H2|auto].
  - intros ((H1 & H2) & H3). split; [split; [auto|now apply fr_here]|]. apply fr_vf; [apply H2|auto].
  - intros (H1 & H2 & H3 & H4). split; [auto|]. split; [now apply fr_here|]. split; [now apply fr_here|].
    apply fr_vf; [apply H2|auto].
  - intros ((H1 & H2 & H3 & H4) & H5). split; [|apply fr_vf; [apply H3|auto]].
    split; [auto|]. split; [now apply fr_here|]. split; [now apply fr_here|]. apply fr_vf; [apply H2|auto].
  - intros ((H1 & H2 & H3 & H4) & H5 & H6). split; [|split; [|apply fr_vf; [apply H3|auto]]].
    + split; [auto|]. split; [now apply fr_here|]. split; [now apply fr_here|]. apply fr_now; auto.
    + destruct H4 as (n & E & _). destruct (fr_owned a n) as [_ ->]; auto.
  - intros ((H1 & H2) & H3 & pn & pn' & E1 & E2 & E3 & E4 & E5 & E6).
    split; [split; [auto|now apply fr_here]|]. split; [apply fr_vf; [apply H2|auto]|].
    exists pn, pn'. split; [apply fr_owned; auto|]. rewrite HV by auto. auto.
  - intros ((H1 & H2 & H3 & H4) & H5). split; [|apply fr_vf; [apply H3|auto]].
    split; [auto|]. split; [now apply fr_here|]. split; [now apply fr_here|]. apply fr_vf; [apply H2|auto].
  - intros ((H1 & H2 & H3 & H4) & H5 & H6). split; [|split; [|apply fr_vf; [apply H3|auto]]].
    + split; [auto|]. split; [now apply fr_here|]. split; [now apply fr_here|]. apply fr_now; auto.
    + destruct H4 as (n & E & _). destruct (fr_owned a n) as [_ ->]; auto.
  - intros ((H1 & H2 & H3 & H4) & H5 & H6). split; [|split; [|apply fr_now; auto]].
    + split; [auto|]. split; [now apply fr_here|]. split; [now apply fr_here|]. apply fr_now; auto.
    + destruct H6 as (n & E & _). destruct (fr_owned b n) as [_ ->]; auto.
  - intros ((H1 & H2 & H3 & H4) & H5 & nb & nr & E1 & E2 & E3 & E4). split; [|split; [apply fr_now; auto|]].
    + split; [auto|]. split; [now apply fr_here|]. split; [now apply fr_here|]. apply fr_now; auto.
    + exists nb, nr. split; [apply fr_owned; auto|]. split; [auto|]. split; [apply fr_owned; auto|auto].
  - intros ((H1 & H2) & H3 & (pn & pn' & E1 & E2 & E3 & E4 & E5 & E6) & rn & R1 & R2 & R3).
    split; [split; [auto|now apply fr_here]|]. split; [apply fr_vf; [apply H2|auto]|]. split.
    + exists pn, pn'. split; [apply fr_owned; auto|]. rewrite HV by auto. auto.
    + exists rn. split; [now apply fr_dead|auto].
  - intros ((H1 & H2) & n & E & Ei). split; [split; [auto|now apply fr_here]|].
    destruct (fr_inner a n E) as (n' & E' & Ei'). exists n'. split; [auto|congruence].
Qed.

Lemma okp_stable a n : och s a <> None -> okp (och s) lo a n -> okp (och s') lo' a n.
Proof.
  intros Ha. unfold okp. assert (La : lo' a = lo a) by now apply (fr_lo _ _ _ _ _ _ _ F).
  destruct (mn_removed n).
  - intros H Hi. destruct (H Hi) as (H0 & b & nb & E1 & E2 & E3 & E4).
    destruct (fr_inner b nb E2) as (nb' & F1 & F2). split; [auto|]. exists b, nb'. split; [auto|]. split; [auto|].
    split; [congruence|]. rewrite La, (fr_lo _ _ _ _ _ _ _ F b) by congruence. auto.
  - intros (H0 & H). split; [auto|]. destruct (mn_inner n).
    + destruct H as ((b0 & B1 & B2 & B3 & B4) & H). split.
      { exists b0. split; [auto|]. split; [auto|]. split; [now apply fr_present|].
        rewrite La, (fr_lo _ _ _ _ _ _ _ F b0) by auto. auto. }
      intros k Hk Hlo Hc. rewrite La in Hlo. destruct (H k Hk Hlo Hc) as (pos & b & E1 & E2 & E3 & E4).
      exists pos, b. split; [auto|]. split; [auto|]. split; [now apply fr_present|].
      rewrite (fr_lo _ _ _ _ _ _ _ F b) by auto. auto.
    + intros k Hlo Hc. rewrite La in Hlo. destruct (H k Hlo Hc) as (b & nb & E1 & E2 & E3 & E4).
      destruct (fr_inner b nb E2) as (nb' & F1 & F2). exists b, nb'. split; [auto|]. split; [auto|].
      split; [congruence|]. rewrite (fr_lo _ _ _ _ _ _ _ F b) by congruence. auto.
Qed.

End Frame.

(** ** The invariant *)
Definition ostatr (p : opc) (x : tst) : Prop :=
  match p with
  | OIdle => x = TIdle
  | ORet r => x = TDone r
  | ORoot c | ORd c _ | OWRoot c | OWSt c _ | OWRs c _ _ | OWSh c _ _ | OShr1 c _ | OShr2 c _
  | OWd c _ _ | OWc c _ _ _ _ | OSpA c _ _ _ _ _ | OSpB c _ _ _ _ _ | OSpC c _ _ _ _ _ _
  | OMgA c _ _ _ _ _ | OMgB c _ _ _ _ _ | OMgC c _ _ _ _ | OMg1 c _ _ _ _ | OMg2 c _ _ _ _ _
  | OMg3 c _ _ _ _ _ | OWl c _ => exists i, x = TCalled c i
  end.

Record oinv (s : ocfg) (Ls : list lvl) (hv : addr -> option mn) (lo : addr -> ext) : Prop := {
  i_tree : dtree Ls (ort s);
  i_heap : hinv hv (ofr s) [] (concat Ls);
  i_lo : lorel lo Ls;
  i_fr : forall a, och s a <> None -> a < ofr s;
  i_pos : 0 < ofr s;
  i_dead : forall a n, och s a = Some n -> mn_removed n = true -> hv a = None;
  i_live : forall a n, och s a = Some n -> mn_removed n = false ->
    (forall u, ~ In a (pnd (oth s u))) -> hv a = Some n;
  i_inn : forall a m, hv a = Some m -> exists n, och s a = Some n /\ mn_inner n = mn_inner m;
  i_okp : forall a n, och s a = Some n -> okp (och s) lo a n;
  i_own : forall u a, osx s a = Some u <-> In a (sxo (oth s u));
  i_pc : forall u, pcok s hv lo u (oth s u);
  i_act : forall u, oth s u <> OIdle -> In u (oac s);
  i_map : forall k, assoc k (recs (last Ls [])) = effs amap_empty (otr s) k;
  i_trace : jtrace amap_empty (otr s);
  i_stat : forall u, ostatr (oth s u) (tstat (otr s) u);
  i_prog : forall u c, In c (opg s u) -> mvalid (call_key c);
}.

(** The end of every step: what is left to show. *)
Lemma oinv_step s Ls hv lo t s' p' l Ls' hv' lo' :
  oinv s Ls hv lo -> frame s s' hv hv' lo lo' t ->
  oth s' = supd (oth s) t p' -> otr s' = otr s ->
  dtree Ls' (ort s') -> hinv hv' (ofr s') [] (concat Ls') -> lorel lo' Ls' ->
  ofr s <= ofr s' -> (forall a, och s' a <> None -> a < ofr s') ->
  (forall x, hv' x <> None -> och s' x <> None) ->
  (forall x n', och s' x = Some n' ->
     (och s x = Some n' /\ hv' x = hv x /\ ~ In x (pnd (oth s t))) \/
     hv' x = Some n' \/
     (In x (pnd p') /\ och s x = Some n' /\ mn_removed n' = false /\
        exists m, hv' x = Some m /\ mn_inner m = mn_inner n') \/
     (mn_removed n' = true /\ hv' x = None /\ okp (och s') lo' x n')) ->
  (forall u a, osx s' a = Some u <-> In a (sxo (supd (oth s) t p' u))) ->
  pcok s' hv' lo' t p' ->
  (forall u, supd (oth s) t p' u <> OIdle -> In u (oac s')) ->
  (forall k, assoc k (recs (last Ls' [])) = eff (effs amap_empty (otr s)) l k) ->
  justified amap_empty (otr s) l ->
  (forall u, u <> t -> tnext (length (otr s)) (tstat (otr s)) l u = tstat (otr s) u) ->
  ostatr p' (tnext (length (otr s)) (tstat (otr s)) l t) ->
  (forall u c, In c (opg s' u) -> mvalid (call_key c)) ->
  oinv (o_emit s' l) Ls' hv' lo'.
Proof.
  intros V F Eth Etr HT HF HL Hfr Hlt Hdom Hcl Hown Hpc Hact Hmap Hj Ho Hst Hpg.
  assert (Hinn : forall a m, hv' a = Some m -> exists n, och s' a = Some n /\ mn_inner n = mn_inner m).
  { intros a m Hm. destruct (och s' a) as [n'|] eqn:E; [|exfalso; apply (Hdom a); congruence].
    exists n'. split; [auto|]. destruct (Hcl a n' E) as [(E1 & E2 & _)|[E1|[(_ & _ & _ & m' & E1 & E2)|(_ & E1 & _)]]].
    - rewrite E2 in Hm. destruct (i_inn _ _ _ _ V a m Hm) as (n & En & Ei). congruence.
    - congruence.
    - congruence.
    - congruence. }
  split; cbn [o_emit och ort ofr ovs osx ogb oac oth opg otr]; auto.
  - pose proof (i_pos _ _ _ _ V). lia.
  - intros a n E Hr. destruct (Hcl a n E) as [(E1 & E2 & _)|[E1|[(_ & _ & E1 & _)|(_ & E1 & _)]]].
    + rewrite E2. exact (i_dead _ _ _ _ V a n E1 Hr).
    + rewrite (alive_not_removed _ _ _ _ _ HT HF HL a n E1) in Hr. discriminate.
    + congruence.
    + auto.
  - intros a n E Hr Hn. destruct (Hcl a n E) as [(E1 & E2 & E3)|[E1|[(E1 & _)|(E1 & _)]]].
    + rewrite E2. apply (i_live _ _ _ _ V a n E1 Hr). intros u Hu. destruct (Nat.eq_dec u t) as [->|Hne]; [auto|].
      apply (Hn u). rewrite Eth, supd_diff by auto. exact Hu.
    + auto.
    + exfalso. apply (Hn t). rewrite Eth, supd_same. exact E1.
    + congruence.
  - intros a n E. destruct (Hcl a n E) as [(E1 & E2 & E3)|[E1|[(E1 & E2 & _)|(_ & _ & E1)]]].
    + apply (okp_stable _ _ _ _ _ _ _ F); [congruence|]. now apply (i_okp _ _ _ _ V).
    + eapply okp_alive; eauto.
    + apply (okp_stable _ _ _ _ _ _ _ F); [congruence|]. now apply (i_okp _ _ _ _ V).
    + exact E1.
  - intros u a. rewrite Eth. apply Hown.
  - intros u. rewrite Eth. destruct (Nat.eq_dec u t) as [->|Hu]; [rewrite supd_same; exact Hpc|].
    rewrite supd_diff by auto. apply (pcok_stable _ _ _ _ _ _ _ u F Hu).
    + intros Hi. now apply (i_act _ _ _ _ V).
    + intros x Hx. now apply (i_own _ _ _ _ V).
    + apply (i_pc _ _ _ _ V).
  - intros u. rewrite Eth. apply Hact.
  - intros k. rewrite Etr, effs_snoc. auto.
  - rewrite Etr. constructor; [apply V|exact Hj].
  - intros u. rewrite Etr, tstat_snoc, Eth. destruct (Nat.eq_dec u t) as [->|Hu]; [rewrite supd_same; exact Hst|].
    rewrite supd_diff, Ho by auto. apply V.
Qed.

(** ** Retired pages *)
Record ginv (s : ocfg) (hv : addr -> option mn) : Prop := {
  g_wait : forall a w u, ogb s a = Some w -> In u w -> In u (oac s);
  g_un : forall a, hv a <> None -> ogb s a = None;
  g_lim : forall u r, In r (lim (oth s u)) -> ogb s r = None;
  g_limu : forall u v r, In r (lim (oth s u)) -> In r (lim (oth s v)) -> u = v;
  g_class : forall a, och s a <> None -> ogb s a = None -> hv a <> None \/ exists u, In a (lim (oth s u));
  g_pres : forall a, ogb s a <> None -> och s a <> None;
  g_links : forall x n y w, och s x = Some n -> linked n y -> ogb s y = Some w ->
    exists w', ogb s x = Some w' /\ incl w' w;
}.

Lemma pnd_dec s Ls hv lo x : oinv s Ls hv lo ->
  (exists u, In x (pnd (oth s u))) \/ (forall u, ~ In x (pnd (oth s u))).
Proof.
  intros V. destruct (osx s x) as [v|] eqn:E.
  - destruct (in_dec Nat.eq_dec x (pnd (oth s v))) as [Hi|Hn]; [eauto|]. right. intros u Hu.
    assert (Ho : osx s x = Some u) by (apply (i_own _ _ _ _ V), pnd_sxo; exact Hu). assert (u = v) by congruence. subst u. auto.
  - right. intros u Hu.
    assert (Ho : osx s x = Some u) by (apply (i_own _ _ _ _ V), pnd_sxo; exact Hu). congruence.
Qed.

Lemma pend_pc s Ls hv lo u x : oinv s Ls hv lo -> In x (pnd (oth s u)) ->
  exists pn pn', och s x = Some pn /\ mn_removed pn = false /\ mn_inner pn = true /\
    hv x = Some pn' /\ mn_inner pn' = true /\ (forall y, kidm pn y -> kidm pn' y \/ In y (lim (oth s u))).
Proof.
  intros V Hx. pose proof (i_pc _ _ _ _ V u) as Hp.
  destruct (oth s u); cbn [pnd In] in Hx; try tauto; destruct Hx as [<-|[]].
  - destruct Hp as (_ & _ & pn & pn' & E1 & E2 & E3 & E4 & E5 & E6 & E7). exists pn, pn'. auto 10.
  - destruct Hp as (_ & _ & (pn & pn' & E1 & E2 & E3 & E4 & E5 & E6 & E7 & _) & _). exists pn, pn'.
    split; [auto|]. split; [auto|]. split; [auto|]. split; [auto|]. split; [auto|].
    intros y Hy. destruct (E7 y Hy) as [?| ->]; [auto|]. right. now left.
Qed.

(** A page that has not been removed is in the tree. *)
Lemma alive_of s Ls hv lo x n : oinv s Ls hv lo -> och s x = Some n -> mn_removed n = false -> hv x <> None.
Proof.
  intros V E Hr. destruct (pnd_dec _ _ _ _ x V) as [(u & Hu)|Hn].
  - destruct (pend_pc _ _ _ _ u x V Hu) as (pn & pn' & _ & _ & _ & E' & _). congruence.
  - rewrite (i_live _ _ _ _ V x n E Hr Hn). discriminate.
Qed.

(** Pages in use lead to pages in use. *)
Lemma unret_links s Ls hv lo x n y : oinv s Ls hv lo ->
  (forall a, hv a <> None -> ogb s a = None) ->
  (forall u r, In r (lim (oth s u)) -> ogb s r = None) ->
  (hv x <> None \/ exists u, In x (lim (oth s u))) ->
  och s x = Some n -> linked n y -> ogb s y = None.
Proof.
  intros V Hun Hlim Hcl E Hl. destruct Hcl as [Ha|(u & Hu)].
  - assert (Hr : mn_removed n = false).
    { destruct (mn_removed n) eqn:Er; auto. exfalso. apply Ha. exact (i_dead _ _ _ _ V x n E Er). }
    destruct (pnd_dec _ _ _ _ x V) as [(u & Hu)|Hn].
    + destruct (pend_pc _ _ _ _ u x V Hu) as (pn & pn' & E1 & E2 & E3 & E4 & E5 & E6).
      assert (pn = n) by congruence. subst pn. unfold linked in Hl. rewrite E3 in Hl. destruct Hl as [_ Hk].
      destruct (E6 y Hk) as [Hk'|Hk'].
      * apply Hun. eapply kid_alive; [apply V|apply V|apply V|exact E4|exact E5|exact Hk'].
      * eapply Hlim; eauto.
    + pose proof (i_live _ _ _ _ V x n E Hr Hn) as Hv. apply Hun. unfold linked in Hl.
      destruct (mn_inner n) eqn:Ei.
      * eapply kid_alive; [apply V|apply V|apply V|exact Hv|exact Ei|apply Hl].
      * destruct (leaf_next _ _ _ _ _ (i_tree _ _ _ _ V) (i_heap _ _ _ _ V) (i_lo _ _ _ _ V) x n y Hv Ei Hl)
          as (dy & _ & _ & Hy & _). congruence.
  - pose proof (i_pc _ _ _ _ V u) as Hp. destruct (oth s u) eqn:Eu; cbn [lim In] in Hu; try tauto.
    destruct Hu as [<-|[]].
    destruct Hp as (_ & _ & (pn & pn' & E1 & E2 & E3 & E4 & E5 & E6 & E7 & E8) & rn & R1 & R2 & R3).
    assert (rn = n) by congruence. subst rn. unfold linked in Hl. destruct (mn_inner n) eqn:Ei.
    + destruct Hl. congruence.
    + rewrite R3 in Hl by auto. injection Hl as <-. apply Hun.
      eapply kid_alive; [apply V|apply V|apply V|exact E5|exact E6|exact E8].
Qed.

Lemma ginv_make s Ls hv lo : oinv s Ls hv lo ->
  (forall a w u, ogb s a = Some w -> In u w -> In u (oac s)) ->
  (forall a, hv a <> None -> ogb s a = None) ->
  (forall u r, In r (lim (oth s u)) -> ogb s r = None) ->
  (forall u v r, In r (lim (oth s u)) -> In r (lim (oth s v)) -> u = v) ->
  (forall a, och s a <> None -> ogb s a = None -> hv a <> None \/ exists u, In a (lim (oth s u))) ->
  (forall a, ogb s a <> None -> och s a <> None) ->
  (forall x n y w wx, och s x = Some n -> linked n y -> ogb s x = Some wx -> ogb s y = Some w -> incl wx w) ->
  ginv s hv.
Proof.
  intros V H1 H2 H3 H4 H5 H6 H7. split; auto. intros x n y w E Hl Hy.
  destruct (ogb s x) as [wx|] eqn:Ex; [exists wx; split; [auto|eapply H7; eauto]|].
  exfalso. rewrite (unret_links _ _ _ _ x n y V H2 H3) in Hy; [discriminate| |exact E|exact Hl].
  apply H5; congruence.
Qed.

(** Retired pages do not change. *)
Lemma retired_same s Ls hv lo s' hv' lo' t x : oinv s Ls hv lo -> ginv s hv ->
  frame s s' hv hv' lo lo' t -> ogb s x <> None -> och s' x = och s x.
Proof.
  intros V G F Hx. destruct (och s x) as [n|] eqn:E; [|exfalso; exact (g_pres _ _ G x Hx E)].
  destruct (fr_pg _ _ _ _ _ _ _ F x n E) as [[? _]|(_ & Hr & _)]; [auto|].
  exfalso. apply Hx. apply (g_un _ _ G). eapply alive_of; eauto.
Qed.

(** A step that retires nothing. *)
Lemma ginv_keep s Ls hv lo t s' p' l Ls' hv' lo' :
  oinv s Ls hv lo -> ginv s hv -> frame s s' hv hv' lo lo' t -> oinv (o_emit s' l) Ls' hv' lo' ->
  oth s' = supd (oth s) t p' -> ogb s' = ogb s -> oac s' = oac s ->
  lim (oth s t) = [] -> lim p' = [] ->
  (forall x, hv x <> None -> hv' x <> None) ->
  (forall x, hv' x <> None -> hv x <> None \/ och s x = None) ->
  (forall x, och s' x <> None -> och s x <> None \/ hv' x <> None) ->
  ginv (o_emit s' l) hv'.
Proof.
  intros V G F V' Eth Egb Eac L1 L2 A1 A2 A3.
  assert (HL : forall u r, In r (lim (oth s' u)) <-> In r (lim (oth s u))).
  { intros u r. rewrite Eth. destruct (Nat.eq_dec u t) as [->|Hu].
    - rewrite supd_same, L1, L2. tauto.
    - rewrite supd_diff by auto. tauto. }
  apply (ginv_make _ Ls' hv' lo' V'); cbn [o_emit och ort ofr ovs osx ogb oac oth opg otr]; rewrite ?Egb, ?Eac.
  - apply G.
  - intros a Ha. destruct (A2 a Ha) as [?|Hn]; [now apply (g_un _ _ G)|].
    destruct (ogb s a) eqn:E; auto. exfalso. apply (g_pres _ _ G a); congruence.
  - intros u r Hr. apply HL in Hr. eapply (g_lim _ _ G); eauto.
  - intros u v r H1 H2. apply HL in H1. apply HL in H2. eapply (g_limu _ _ G); eauto.
  - intros a Ha Hg. destruct (A3 a Ha) as [Hp|?]; [|auto].
    destruct (g_class _ _ G a Hp Hg) as [?|(u & Hu)]; [auto|]. right. exists u. now apply HL.
  - intros a Ha. eapply fr_present; eauto. now apply (g_pres _ _ G).
  - intros x n y w wx E Hl Hx Hy.
    assert (E' : och s x = Some n).
    { rewrite <- E. symmetry. eapply retired_same; eauto. congruence. }
    destruct (g_links _ _ G x n y w E' Hl Hy) as (w' & H1 & H2). assert (w' = wx) by congruence. subst. exact H2.
Qed.

Lemma opage_held s t a : holds (ogb s) t a -> opage s a = och s a.
Proof. intros H. unfold opage. destruct (ogb s a) as [[|]|] eqn:E; auto. destruct (H [] E). Qed.

Lemma opage_un s a : ogb s a = None -> opage s a = och s a.
Proof. intros H. unfold opage. now rewrite H. Qed.

Lemma holds_un s t a : ogb s a = None -> holds (ogb s) t a.
Proof. intros H w Hw. congruence. Qed.

(** Links lead from pages a call may use to pages it may use. *)
Lemma follow s hv t x n y : ginv s hv -> och s x = Some n -> linked n y -> holds (ogb s) t x -> holds (ogb s) t y.
Proof.
  intros G E Hl Hx w Hy. destruct (g_links _ _ G x n y w E Hl Hy) as (w' & H1 & H2). apply H2, Hx, H1.
Qed.

End OConcInv.
