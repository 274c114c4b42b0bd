(** The concurrent pessimistic multi-layer tree: its invariant.  Proof-side only. *)
From Coq Require Import List Arith Bool Lia Sorted Permutation.
From Verif Require Import Params Mem Common Spec NodeAbs SLIface MLIface TreeState Levels TreeHeap
  LevelOps SLModel SLSearch SLSplit SLMerge SLProofs MLModel MLSearch MLSteps ConcSpec ConcModel ConcLin
  MConcModel.
Import ListNotations.

(** ** Trees as lists of levels *)
Section Lvls.
Context {P : Params} {O : OrdLaws P}.

Definition topE (U : list lvl) (E : list (ext * addr)) : list (ext * addr) :=
  match U with [] => E | L :: _ => entries NegInf L end.

Fixpoint up (U : list lvl) (E : list (ext * addr)) : Prop :=
  match U with
  | [] => True
  | L :: U' => level false true L /\ kents NegInf L = topE U' E /\ up U' E
  end.

Definition dtree (Ls : list lvl) (root : addr) : Prop :=
  match Ls with
  | [] => False
  | top :: D => mdn top D /\ entries NegInf top = [(NegInf, root)]
  end.

Lemma up_mdn U : forall L D, (match U with [] => mdn L D | T :: U' => mdn T (U' ++ L :: D) end) <->
  up U (entries NegInf L) /\ mdn L D.
Proof.
  induction U as [|T U IH]; intros L D.
  - cbn. tauto.
  - specialize (IH L D). destruct U as [|T' U]; cbn [app mdn up topE] in *.
    + tauto.
    + rewrite IH. tauto.
Qed.

Lemma dtree_app U L D root : dtree (U ++ L :: D) root <->
  up U (entries NegInf L) /\ mdn L D /\ topE U (entries NegInf L) = [(NegInf, root)].
Proof.
  pose proof (up_mdn U L D) as H. destruct U as [|T U]; cbn [app dtree topE] in *; tauto.
Qed.

Definition onp (Ls : list lvl) (k : K) (a : addr) : Prop := exists L, In L Ls /\ fnd NegInf k L = a.

Lemma onp_split Ls k a : onp Ls k a -> exists U L D, Ls = U ++ L :: D /\ fnd NegInf k L = a.
Proof. intros (L & H & E). apply in_split in H as (U & D & ->). eauto. Qed.

Lemma onp_app U L D k a : fnd NegInf k L = a -> onp (U ++ L :: D) k a.
Proof. intros H. exists L. split; auto. apply in_or_app. right. now left. Qed.

(** Every address for which [onp] holds and that is not in [M] keeps its place. *)
Definition keeps (M : list addr) (Ls Ls' : list lvl) : Prop :=
  forall k a, onp Ls k a -> ~ In a M -> onp Ls' k a.

Lemma keeps_refl M Ls : keeps M Ls Ls.
Proof. intros k a H _. exact H. Qed.

(** The first page of a level that is not in [M] remains the first page of a level. *)
Definition firstp (Ls : list lvl) (a : addr) : Prop := exists L, In L Ls /\ first_addr L None = Some a.
Definition lkeeps (M : list addr) (Ls Ls' : list lvl) : Prop :=
  forall a, firstp Ls a -> ~ In a M -> firstp Ls' a.
Lemma lkeeps_refl M Ls : lkeeps M Ls Ls.
Proof. intros a H _. exact H. Qed.
Lemma lkeeps_one M U L L' D : first_addr L' None = first_addr L None -> lkeeps M (U ++ L :: D) (U ++ L' :: D).
Proof.
  intros E a (T & HT & Ha) _. apply in_app_or in HT as [HT|[->|HT]].
  - exists T. rewrite in_app_iff. auto.
  - exists L'. rewrite in_app_iff. split; [right; now left|congruence].
  - exists T. rewrite in_app_iff. cbn. auto.
Qed.
Lemma lkeeps_two M U L L' C C' D : first_addr L' None = first_addr L None ->
  first_addr C' None = first_addr C None -> lkeeps M (U ++ L :: C :: D) (U ++ L' :: C' :: D).
Proof.
  intros E1 E2 a Ha Hn.
  assert (H1 : firstp ((U ++ [L']) ++ C :: D) a).
  { rewrite <- app_assoc. cbn [app]. exact (lkeeps_one M U L L' (C :: D) E1 a Ha Hn). }
  pose proof (lkeeps_one M (U ++ [L']) C C' D E2 a H1 Hn) as Q. now rewrite <- app_assoc in Q.
Qed.
Lemma first_mid (L1 : lvl) a n n' L2 L2' :
  first_addr (L1 ++ (a, n) :: L2) None = first_addr (L1 ++ (a, n') :: L2') None.
Proof. destruct L1 as [|[]]; reflexivity. Qed.

Lemma fnd_entries inner L L' k : level false inner L -> level false inner L' ->
  entries NegInf L = entries NegInf L' -> fnd NegInf k L = fnd NegInf k L'.
Proof.
  intros H H' E.
  destruct (lvl_find _ _ _ k H) as (L1 & a & n & L2 & -> & -> & R1 & R2).
  destruct (lvl_find _ _ _ k H') as (L1' & a' & n' & L2' & -> & -> & R1' & R2').
  rewrite !entries_app in E. cbn [entries] in E.
  pose proof (seg_entries _ _ _ _ _ _ H) as [Hok _].
  rewrite entries_app in Hok. cbn [entries] in Hok.
  destruct (seg_wf _ _ _ _ _ _ _ _ _ H) as (_ & _ & HS).
  destruct (seg_wf _ _ _ _ _ _ _ _ _ H') as (_ & _ & HS').
  destruct (seg_entries _ _ _ _ _ _ HS) as [_ HB]. destruct (seg_entries _ _ _ _ _ _ HS') as [_ HB'].
  destruct (eok_split_unique _ _ _ _ _ _ (Key k) Hok E) as (_ & Q & _).
  - exact R1.
  - intros y Hy. destruct (HB y Hy) as [Hy' _]. eapply elt_ele_trans; [exact R2|exact Hy'].
  - exact R1'.
  - intros y Hy. destruct (HB' y Hy) as [Hy' _]. eapply elt_ele_trans; [exact R2'|exact Hy'].
  - now injection Q.
Qed.

(** Keys that are not in the replaced part of a level. *)
Lemma fnd_keep inner C1 X X' C2 k :
  level false inner (C1 ++ X ++ C2) -> level false inner (C1 ++ X' ++ C2) ->
  lasthi (lasthi NegInf C1) X' = lasthi (lasthi NegInf C1) X ->
  ~ In (fnd NegInf k (C1 ++ X ++ C2)) (map fst X) ->
  fnd NegInf k (C1 ++ X' ++ C2) = fnd NegInf k (C1 ++ X ++ C2).
Proof.
  intros H H' E Hn.
  destruct (lvl_find _ _ _ k H) as (L1 & a & n & L2 & EL & Hf & R). rewrite Hf in *.
  assert (HX : ~ In (a, n) X).
  { intros Hin. apply Hn. apply (in_map fst) in Hin. exact Hin. }
  symmetry in EL.
  assert (HC : (exists l, C1 = L1 ++ (a, n) :: l) \/ (exists l, C2 = l ++ (a, n) :: L2 /\ L1 = C1 ++ X ++ l)).
  { clear - EL HX. revert L1 EL. induction C1 as [|c C1 IH]; intros L1 EL.
    - right. cbn in *. revert L1 EL. induction X as [|x X IH]; intros L1 EL; cbn in *.
      + exists L1. auto.
      + destruct L1 as [|y L1]; cbn in EL; inv EL.
        * exfalso. apply HX. now left.
        * destruct (IH ltac:(tauto) L1 H1) as (l & -> & ->). exists l. auto.
    - destruct L1 as [|y L1]; cbn in EL; inv EL.
      + left. exists C1. auto.
      + destruct (IH _ H1) as [(l & ->)|(l & -> & ->)]; [left|right]; exists l; auto. }
  destruct HC as [(l & ->)|(l & -> & ->)].
  - rewrite <- app_assoc in H' |- *. cbn [app] in *. eapply fnd_mid; eauto.
  - rewrite !app_assoc in H' |- *. eapply fnd_mid; eauto.
    rewrite <- !app_assoc in *. rewrite !lasthi_app in *. now rewrite E.
Qed.

Lemma onp_cases Ls U L D k a : Ls = U ++ L :: D -> onp Ls k a ->
  (exists T, In T (U ++ D) /\ fnd NegInf k T = a) \/ fnd NegInf k L = a.
Proof.
  intros -> (T & H & E). apply in_app_or in H as [H|[->|H]]; [left|auto|left]; exists T; rewrite in_app_iff; auto.
Qed.

Lemma keeps_one M U L L' D : (forall k, ~ In (fnd NegInf k L) M -> fnd NegInf k L' = fnd NegInf k L) ->
  keeps M (U ++ L :: D) (U ++ L' :: D).
Proof.
  intros H k a (T & HT & E) Hn. apply in_app_or in HT as [HT|[->|HT]].
  - exists T. rewrite in_app_iff. auto.
  - exists L'. rewrite in_app_iff. split; [right; now left|]. rewrite <- E in Hn |- *. auto.
  - exists T. rewrite in_app_iff. cbn. auto.
Qed.

Lemma keeps_two M U L L' C C' D :
  (forall k, fnd NegInf k L' = fnd NegInf k L) ->
  (forall k, ~ In (fnd NegInf k C) M -> fnd NegInf k C' = fnd NegInf k C) ->
  keeps M (U ++ L :: C :: D) (U ++ L' :: C' :: D).
Proof.
  intros H1 H2 k a Ho Hn.
  assert (Ho' : onp ((U ++ [L']) ++ C :: D) k a).
  { rewrite <- app_assoc. cbn [app]. exact (keeps_one M U L L' (C :: D) (fun k _ => H1 k) k a Ho Hn). }
  pose proof (keeps_one M (U ++ [L']) C C' D H2 k a Ho' Hn) as Q. rewrite <- app_assoc in Q. exact Q.
Qed.

(** A step on two neighbouring levels keeps the tree. *)
Lemma dtree_step U L C D L' C' root : dtree (U ++ L :: C :: D) root ->
  stepres (innerb D) L C L' C' ->
  dtree (U ++ L' :: C' :: D) root /\
  recs (last (U ++ L' :: C' :: D) []) = recs (last (U ++ L :: C :: D) []) /\
  (forall k, fnd NegInf k L' = fnd NegInf k L).
Proof.
  rewrite !dtree_app. intros (HU & (HL & HE & HD) & HT) SR. split; [|split].
  - rewrite (sr_top _ _ _ _ _ SR). split; [auto|]. split; [|auto]. cbn [mdn].
    split; [apply SR|]. split; [apply SR|]. eapply mdn_replace; [exact HD|apply SR|].
    intros E. now apply (sr_k _ _ _ _ _ SR).
  - assert (Hl : forall X Y, last (U ++ X :: Y :: D) [] = last D Y).
    { intros X Y. change (X :: Y :: D) with ([X] ++ Y :: D). rewrite app_assoc.
      generalize (U ++ [X]). intros l. induction l as [|x l IH]; cbn [app].
      - apply last_cons.
      - rewrite last_cons. rewrite <- IH. apply last_ne. destruct l; discriminate. }
    rewrite !Hl. destruct D as [|T D]; [|f_equal; apply last_ne; discriminate].
    cbn [last]. apply (sr_r _ _ _ _ _ SR). reflexivity.
  - intros k. symmetry. eapply (fnd_entries true); eauto; [apply SR|]. symmetry. apply SR.
Qed.

Lemma last_end (U : list lvl) L d : last (U ++ [L]) d = L.
Proof. apply last_last. Qed.

End Lvls.

(** ** Latches *)
Section Latches.

(** [S u a], [X u a], [W u a]: [u] holds [a] in shared, in SIX or X, and in X mode. *)
Record lok (sh : addr -> list tid) (sx : addr -> option tid) (xl : addr -> bool)
           (S X W : tid -> addr -> Prop) : Prop := {
  l_s : forall u a, In u (sh a) <-> S u a;
  l_x : forall u a, sx a = Some u <-> X u a;
  l_w : forall a, xl a = true <-> exists u, W u a;
  l_wx : forall u a, W u a -> X u a;
  l_ws : forall u a, W u a -> sh a = [];
}.

Context (sh : addr -> list tid) (sx : addr -> option tid) (xl : addr -> bool)
        (S X W : tid -> addr -> Prop).
Hypothesis H : lok sh sx xl S X W.

Lemma supd_eq {A} (f : nat -> A) a x b : supd f a x b = if Nat.eqb b a then x else f b.
Proof. reflexivity. Qed.

Lemma lok_ext (S' X' W' : tid -> addr -> Prop) : (forall u a, S u a <-> S' u a) ->
  (forall u a, X u a <-> X' u a) -> (forall u a, W u a <-> W' u a) -> lok sh sx xl S' X' W'.
Proof.
  intros HS HX HW. split.
  - intros u a. rewrite <- HS. apply H.
  - intros u a. rewrite <- HX. apply H.
  - intros a. rewrite (l_w _ _ _ _ _ _ H). split; intros (u & Hu); exists u; now apply HW.
  - intros u a Hw. apply HX. eapply l_wx; [exact H|]. now apply HW.
  - intros u a Hw. eapply l_ws; [exact H|]. apply HW. exact Hw.
Qed.

Lemma lok_lockS t a : xl a = false ->
  lok (supd sh a (t :: sh a)) sx xl (fun u b => S u b \/ (u = t /\ b = a)) X W.
Proof.
  intros Hx. split; try apply H.
  - intros u b. rewrite supd_eq. destruct (Nat.eqb_spec b a) as [->|Hne].
    + cbn. rewrite (l_s _ _ _ _ _ _ H). split; [intros [->|]; auto|]. intros [|[-> _]]; auto.
    + rewrite (l_s _ _ _ _ _ _ H). tauto.
  - intros u b Hw. rewrite supd_eq. destruct (Nat.eqb_spec b a) as [->|Hne].
    + assert (xl a = true) by (apply H; eauto). congruence.
    + eapply l_ws; eauto.
Qed.

Lemma lok_unlockS t a :
  lok (supd sh a (filter (fun u => negb (Nat.eqb u t)) (sh a))) sx xl
      (fun u b => S u b /\ ~ (u = t /\ b = a)) X W.
Proof.
  split; try apply H.
  - intros u b. rewrite supd_eq. destruct (Nat.eqb_spec b a) as [->|Hne].
    + rewrite filter_In, (l_s _ _ _ _ _ _ H). destruct (Nat.eqb_spec u t); cbn; intuition congruence.
    + rewrite (l_s _ _ _ _ _ _ H). tauto.
  - intros u b Hw. rewrite supd_eq. destruct (Nat.eqb_spec b a) as [->|Hne].
    + now rewrite (l_ws _ _ _ _ _ _ H u a Hw).
    + eapply l_ws; eauto.
Qed.

Lemma lok_own t a : sx a = None ->
  lok sh (supd sx a (Some t)) (supd xl a false) S (fun u b => X u b \/ (u = t /\ b = a)) W.
Proof.
  intros Hx.
  assert (HnX : forall u, ~ X u a).
  { intros u Hu. apply H in Hu. congruence. }
  split; try apply H.
  - intros u b. rewrite supd_eq. destruct (Nat.eqb_spec b a) as [->|Hne].
    + split; [intros [= ->]; auto|]. intros [Hu|[-> _]]; [destruct (HnX _ Hu)|auto].
    + rewrite (l_x _ _ _ _ _ _ H). tauto.
  - intros b. rewrite supd_eq. destruct (Nat.eqb_spec b a) as [->|Hne]; [|apply H].
    split; [discriminate|]. intros (u & Hu). apply (l_wx _ _ _ _ _ _ H) in Hu. destruct (HnX _ Hu).
  - intros u b Hw. left. eapply l_wx; eauto.
Qed.

Lemma lok_uniq t a u : X t a -> X u a -> u = t.
Proof. intros H1 H2. apply H in H1. apply H in H2. congruence. Qed.

Lemma lok_disown t a : X t a ->
  lok sh (supd sx a None) (supd xl a false) S (fun u b => X u b /\ ~ (u = t /\ b = a))
      (fun u b => W u b /\ ~ (u = t /\ b = a)).
Proof.
  intros Hx. pose proof (fun u => lok_uniq t a u Hx) as Hu.
  pose proof (fun u Hw => Hu u (l_wx _ _ _ _ _ _ H u a Hw)) as Hw.
  split; try apply H.
  - intros u b. rewrite supd_eq. destruct (Nat.eqb_spec b a) as [->|Hne].
    + split; [discriminate|]. intros [H1 H2]. destruct H2. auto.
    + rewrite (l_x _ _ _ _ _ _ H). tauto.
  - intros b. rewrite supd_eq. destruct (Nat.eqb_spec b a) as [->|Hne].
    + split; [discriminate|]. intros (u & H1 & H2). destruct H2. auto.
    + rewrite (l_w _ _ _ _ _ _ H). split; intros (u & H1); exists u; tauto.
  - intros u b [H1 ?]. split; auto. eapply l_wx; eauto.
  - intros u b [H1 ?]. eapply l_ws; eauto.
Qed.

Lemma lok_up t a : X t a -> sh a = [] ->
  lok sh sx (supd xl a true) S X (fun u b => W u b \/ (u = t /\ b = a)).
Proof.
  intros Hx Hs. split; try apply H.
  - intros b. rewrite supd_eq. destruct (Nat.eqb_spec b a) as [->|Hne].
    + split; auto. intros _. exists t. auto.
    + rewrite (l_w _ _ _ _ _ _ H). split; intros (u & Hu); exists u; tauto.
  - intros u b [Hw|[-> ->]]; auto. eapply l_wx; eauto.
  - intros u b [Hw|[-> ->]]; auto. eapply l_ws; eauto.
Qed.

Lemma lok_down t a : X t a -> lok sh sx (supd xl a false) S X (fun u b => W u b /\ ~ (u = t /\ b = a)).
Proof.
  intros Hx. pose proof (fun u => lok_uniq t a u Hx) as Hu.
  pose proof (fun u Hw => Hu u (l_wx _ _ _ _ _ _ H u a Hw)) as Hw.
  split; try apply H.
  - intros b. rewrite supd_eq. destruct (Nat.eqb_spec b a) as [->|Hne].
    + split; [discriminate|]. intros (u & H1 & H2). destruct H2. auto.
    + rewrite (l_w _ _ _ _ _ _ H). split; intros (u & H1); exists u; tauto.
  - intros u b [H1 ?]. eapply l_wx; eauto.
  - intros u b [H1 ?]. eapply l_ws; eauto.
Qed.

End Latches.

(** ** The invariant *)
Section MConcInv.
Context {P : Params} {O : OrdLaws P} {N : MLOps P} {LW : MLLaws P N} (fx : bool).
#[local] Existing Instance no_leak.
Notation hinv := (@hinv P no_leak mn mrep).

(** Latches a program counter stands for. *)
Definition shl (p : mpc) : list addr :=
  match p with MR1 _ => [0] | MRd _ a => [a] | _ => [] end.
Definition sxl (p : mpc) : list addr :=
  match p with
  | MW1 _ => [0]
  | MShr _ a | MShrX _ a | MRs _ a | MRsX _ a => [0; a]
  | MWd _ a => [a]
  | MCh _ a b _ | MCm _ a b _ | MSp _ a b _ | MSpX _ a b _ | MMg _ a b _ => [a; b]
  | MMg1 _ a b r _ | MMg2 _ a b r _ | MMg3 _ a b r _ => [a; b; r]
  | _ => []
  end.
Definition xll (p : mpc) : list addr :=
  match p with
  | MShrX _ _ | MRsX _ _ => [0]
  | MSpX _ a _ _ | MMg2 _ a _ _ _ => [a]
  | MMg3 _ a b _ _ => [a; b]
  | _ => []
  end.

Definition rdc (c : call) : Prop := is_read c = true /\ mvalid (call_key c).
Definition wrc (c : call) : Prop := is_read c = false /\ mvalid (call_key c).
Definition routes (h : addr -> option mn) (a : addr) (k : K) (pos : nat) (b : addr) : Prop :=
  exists n, h a = Some n /\ mn_inner n = true /\ routep n k = Some (pos, b).
Definition pageP (h : addr -> option mn) (a : addr) (Q : mn -> Prop) : Prop :=
  exists n, h a = Some n /\ Q n.
Definition mergeP (h : addr -> option mn) (a b r : addr) (pos : nat) : Prop :=
  exists n nb nr, h a = Some n /\ h b = Some nb /\ h r = Some nr /\
    mn_child n (pos + 1) = Some r /\ pos + 1 <> mn_rc n /\ mn_can_merge nb nr = true.

Definition pcok (Ls : list lvl) (h : addr -> option mn) (root fr : addr) (p : mpc) : Prop :=
  let down c a b pos := wrc c /\ onp Ls (call_key c) a /\ roomat h a /\
                        routes h a (call_key c) pos b /\ h b <> None in
  match p with
  | MIdle | MRet _ => True
  | MR0 c | MR1 c => rdc c
  | MRd c a => rdc c /\ a <> 0 /\ a < fr /\
      ((fx = false /\ h a = None) \/ (h a <> None /\ onp Ls (call_key c) a))
  | MW0 c | MW1 c => wrc c
  | MShr c a => wrc c /\ a = root /\ h a <> None
  | MShrX c a => wrc c /\ a = root /\ pageP h a (fun n => mn_rc n = 1 /\ mn_inner n = true)
  | MRs c a | MRsX c a => wrc c /\ a = root /\ pageP h a msplit_ok
  | MWd c a => wrc c /\ onp Ls (call_key c) a /\ roomat h a
  | MCh c a b pos => down c a b pos
  | MCm c a b pos => down c a b pos /\ roomat h b
  | MSp c a b pos | MSpX c a b pos => down c a b pos /\ pageP h b msplit_ok
  | MMg c a b pos => down c a b pos /\ roomat h b /\ pageP h a (fun n => pos + 1 <> mn_rc n)
  | MMg1 c a b r pos | MMg2 c a b r pos | MMg3 c a b r pos =>
      down c a b pos /\ roomat h b /\ mergeP h a b r pos
  end.

Definition mstat (p : mpc) (x : tst) : Prop :=
  match p with
  | MIdle => x = TIdle
  | MRet r => x = TDone r
  | MR0 c | MR1 c | MRd c _ | MW0 c | MW1 c | MShr c _ | MShrX c _ | MRs c _ | MRsX c _ | MWd c _
  | MCh c _ _ _ | MCm c _ _ _ | MSp c _ _ _ | MSpX c _ _ _ | MMg c _ _ _
  | MMg1 c _ _ _ _ | MMg2 c _ _ _ _ | MMg3 c _ _ _ _ => exists i, x = TCalled c i
  end.

Definition holdS (th : tid -> mpc) (u : tid) (a : addr) : Prop := In a (shl (th u)).
Definition holdX (th : tid -> mpc) (u : tid) (a : addr) : Prop := In a (sxl (th u)).
Definition holdW (th : tid -> mpc) (u : tid) (a : addr) : Prop := In a (xll (th u)).
Definition latches (s : mcfg) (th : tid -> mpc) : Prop :=
  lok (msh s) (msx s) (mxl s) (holdS th) (holdX th) (holdW th).

Record minv (s : mcfg) (Ls : list lvl) : Prop := {
  v_tree : dtree Ls (mrt s);
  v_heap : hinv (mch s) (mfr s) [] (concat Ls);
  v_zero : mch s 0 = None;
  v_pos : 0 < mfr s;
  v_lat : latches s (mth s);
  v_pc : forall u, pcok Ls (mch s) (mrt s) (mfr s) (mth s u);
  v_map : forall k, assoc k (recs (last Ls [])) = effs amap_empty (mtr s) k;
  v_trace : jtrace amap_empty (mtr s);
  v_stat : forall u, mstat (mth s u) (tstat (mtr s) u);
  v_prog : forall u c, In c (mpg s u) -> mvalid (call_key c);
}.

Lemma onp_dom Ls h f root k a : dtree Ls root -> hinv h f [] (concat Ls) -> onp Ls k a ->
  exists n d, In (a, n) (concat Ls) /\ h a = Some d /\ mrep d n.
Proof.
  intros HT HF (L & HL & Hf). apply in_split in HL as (U & D & ->).
  apply dtree_app in HT as (_ & HD & _). apply mdn_level in HD.
  destruct (lvl_find _ _ _ k HD) as (L1 & b & n & L2 & -> & Hb & _). rewrite Hb in Hf. subst b.
  assert (Hin : In (a, n) (concat (U ++ (L1 ++ (a, n) :: L2) :: D))).
  { rewrite concat_app. cbn [concat]. rewrite !in_app_iff. right. left. right. now left. }
  destruct (hinv_get _ _ _ _ _ a n HF Hin) as (d & Hd & Hr). eauto.
Qed.

Lemma root_dom Ls h f root : dtree Ls root -> hinv h f [] (concat Ls) ->
  exists nr D d, Ls = [(root, nr)] :: D /\ mdn [(root, nr)] D /\ h root = Some d /\ mrep d nr /\
    forall k, onp Ls k root.
Proof.
  intros HT HF. destruct Ls as [|top D]; [destruct HT|]. destruct HT as [HD HE].
  destruct (top_single _ _ HE) as (nr & ->).
  destruct (hinv_get _ _ _ _ _ root nr HF) as (d & Hd & Hr); [now left|].
  exists nr, D, d. split; [auto|]. split; [auto|]. split; [auto|]. split; [auto|].
  intros k. exists [(root, nr)]. split; [now left|]. cbn [fnd].
  rewrite (proj2 (lvl_one _ _ _ (mdn_level _ _ HD))).
  destruct (elt_dec (Key k) PosInf) as [|E3]; auto. exfalso. apply E3. exact I.
Qed.

(** Everything latched is an allocated address. *)
Lemma pcok_lt s Ls u a : minv s Ls -> In a (shl (mth s u)) \/ In a (sxl (mth s u)) -> a < mfr s.
Proof.
  intros V. pose proof (v_pc _ _ V u) as Hp. pose proof (v_pos _ _ V) as H0.
  assert (HX : forall x, mch s x <> None -> x < mfr s) by apply (hi_fresh _ _ _ _ _ (v_heap _ _ V)).
  assert (HO : forall k x, onp Ls k x -> x < mfr s).
  { intros k x Hx. destruct (onp_dom _ _ _ _ _ _ (v_tree _ _ V) (v_heap _ _ V) Hx) as (n & d & _ & E & _).
    apply HX. congruence. }
  assert (HR : mrt s < mfr s).
  { destruct (root_dom _ _ _ _ (v_tree _ _ V) (v_heap _ _ V)) as (n & D & d & _ & _ & E & _).
    apply HX. congruence. }
  destruct (mth s u); cbn [shl sxl pcok In] in *; intuition (subst; eauto).
  all: match goal with H : mergeP _ _ _ _ _ |- _ => destruct H as (n1 & n2 & n3 & E1 & E2 & E3 & _) end;
    apply HX; congruence.
Qed.

Lemma fresh_free s Ls a : minv s Ls -> mfr s <= a -> msx s a = None /\ msh s a = [] /\ mxl s a = false.
Proof.
  intros V Ha. pose proof (v_lat _ _ V) as HL.
  assert (Hx : msx s a = None).
  { destruct (msx s a) as [u|] eqn:E; auto. apply (l_x _ _ _ _ _ _ HL) in E.
    assert (a < mfr s) by (eapply pcok_lt; eauto). lia. }
  split; [auto|]. split.
  - destruct (msh s a) as [|u l] eqn:E; auto. assert (Hu : In u (msh s a)) by (rewrite E; now left).
    apply (l_s _ _ _ _ _ _ HL) in Hu. assert (a < mfr s) by (eapply pcok_lt; eauto). lia.
  - destruct (mxl s a) eqn:E; auto. apply (l_w _ _ _ _ _ _ HL) in E as (u & Hu).
    apply (l_wx _ _ _ _ _ _ HL) in Hu. apply (l_x _ _ _ _ _ _ HL) in Hu. congruence.
Qed.

(** A program counter whose latched pages have not been touched. *)
Lemma pcok_stable Ls Ls' h h' root root' fr fr' M p :
  pcok Ls h root fr p -> keeps M Ls Ls' -> fr <= fr' ->
  (forall a, In a (shl p) \/ In a (sxl p) -> ~ In a M) ->
  (forall a, a < fr -> ~ In a M -> h' a = h a) ->
  (forall a, h a <> None -> a < fr) ->
  (In 0 (sxl p) -> root' = root) ->
  pcok Ls' h' root' fr' p.
Proof.
  intros Hp HK Hfr HM Hh Hlt Hroot.
  assert (E : forall a, In a (shl p) \/ In a (sxl p) -> h a <> None -> h' a = h a).
  { intros a Ha Hn. apply Hh; auto. }
  assert (K1 : forall k a, In a (shl p) \/ In a (sxl p) -> onp Ls k a -> onp Ls' k a).
  { intros k a Ha Ho. apply HK; auto. }
  assert (K2 : forall a, In a (shl p) \/ In a (sxl p) -> roomat h a -> roomat h' a).
  { intros a Ha (d & Hd & Hr). exists d. rewrite E; auto. congruence. }
  assert (K3 : forall a Q, In a (shl p) \/ In a (sxl p) -> pageP h a Q -> pageP h' a Q).
  { intros a Q Ha (d & Hd & Hr). exists d. rewrite E; auto. congruence. }
  assert (K4 : forall a k pos b, In a (shl p) \/ In a (sxl p) -> routes h a k pos b -> routes h' a k pos b).
  { intros a k pos b Ha (d & Hd & Hr). exists d. rewrite E; auto. congruence. }
  assert (K5 : forall a, In a (shl p) \/ In a (sxl p) -> h a <> None -> h' a <> None).
  { intros a Ha Hd. rewrite E; auto. }
  assert (K6 : forall a b r pos, (In a (shl p) \/ In a (sxl p)) -> (In b (shl p) \/ In b (sxl p)) ->
            (In r (shl p) \/ In r (sxl p)) -> mergeP h a b r pos -> mergeP h' a b r pos).
  { intros a b r pos Ha Hb Hr (n & nb & nr & E1 & E2 & E3 & R). exists n, nb, nr.
    rewrite !E by (auto; congruence). auto. }
  assert (K7 : forall a, In a (shl p) \/ In a (sxl p) -> a < fr -> h a = None -> h' a = None).
  { intros a Ha Hl Hn. rewrite Hh; auto. }
  clear E Hh HK HM.
  destruct p; cbn [pcok shl sxl In] in *;
    repeat match goal with
    | H : _ /\ _ |- _ => destruct H
    end; subst; try rewrite Hroot by auto; auto 12.
  (* a reader *)
  split; [auto|]. split; [auto|]. split; [lia|].
  destruct H2 as [[? ?]|[? ?]]; [left|right]; auto 12.
Qed.

(** The end of every step: what is left to show. *)
Lemma minv_step s Ls t h' root' fr' sh' sx' xl' p' pg' l Ls' M :
  minv s Ls ->
  dtree Ls' root' -> hinv h' fr' [] (concat Ls') -> h' 0 = None -> mfr s <= fr' ->
  lok sh' sx' xl' (holdS (supd (mth s) t p')) (holdX (supd (mth s) t p')) (holdW (supd (mth s) t p')) ->
  keeps M Ls Ls' -> (forall a, a < mfr s -> ~ In a M -> h' a = mch s a) ->
  (forall u, u <> t -> forall a, In a (sxl (mth s u)) -> ~ In a M) ->
  (forall u, u <> t -> forall a, In a (shl (mth s u)) -> ~ In a M \/
     (fx = false /\ a <> 0 /\ h' a = None)) ->
  (root' = mrt s \/ In 0 (sxl (mth s t))) ->
  pcok Ls' h' root' fr' p' ->
  (forall k, assoc k (recs (last Ls' [])) = eff (effs amap_empty (mtr s)) l k) ->
  justified amap_empty (mtr s) l ->
  (forall u, u <> t -> tnext (length (mtr s)) (tstat (mtr s)) l u = tstat (mtr s) u) ->
  mstat p' (tnext (length (mtr s)) (tstat (mtr s)) l t) ->
  (forall u c, In c (pg' u) -> mvalid (call_key c)) ->
  minv (m_emit (MCfg h' root' fr' sh' sx' xl' (supd (mth s) t p') pg' (mtr s)) l) Ls'.
Proof.
  intros V HT HF H0 Hfr HL HK Hh HX HS Hroot Hp Hmap Hj Ho Hst Hpg.
  split; cbn [m_emit mch mrt mfr msh msx mxl mth mpg mtr]; auto.
  - pose proof (v_pos _ _ V). lia.
  - intros u. unfold supd at 1. destruct (Nat.eqb_spec u t) as [->|Hu]; [exact Hp|].
    assert (Hdec : (forall a, In a (shl (mth s u)) -> ~ In a M) \/
                   (exists c a, mth s u = MRd c a /\ fx = false /\ h' a = None)).
    { destruct (mth s u) eqn:E; cbn [shl]; try (left; intros ? []; fail).
      - left. intros a [<-|[]]. assert (Hin : In 0 (shl (mth s u))) by (rewrite E; now left).
        destruct (HS u Hu 0 Hin) as [?|(_ & ? & _)]; [auto|congruence].
      - assert (Hin : In a (shl (mth s u))) by (rewrite E; now left).
        destruct (HS u Hu a Hin) as [?|(? & _ & ?)]; [left; intros x [<-|[]]; auto|].
        right. eauto. }
    destruct Hdec as [Hdec|(c & a & E & E1 & E2)].
    + apply (pcok_stable Ls Ls' (mch s) h' (mrt s) root' (mfr s) fr' M); auto.
      * apply (v_pc _ _ V).
      * intros a [Ha|Ha]; auto. now apply (HX u).
      * apply (hi_fresh _ _ _ _ _ (v_heap _ _ V)).
      * intros Hin. destruct Hroot as [?|Hr]; [auto|]. exfalso.
        apply (l_x _ _ _ _ _ _ (v_lat _ _ V)) in Hin. apply (l_x _ _ _ _ _ _ (v_lat _ _ V)) in Hr. congruence.
    + pose proof (v_pc _ _ V u) as Hq. rewrite E in *. cbn [pcok] in *.
      destruct Hq as (A & B & C & D). split; [auto|]. split; [auto|]. split; [lia|]. left. auto.
  - intros k. rewrite effs_snoc. auto.
  - constructor; [apply V|exact Hj].
  - intros u. rewrite tstat_snoc. unfold supd at 1. destruct (Nat.eqb_spec u t) as [->|Hu]; [exact Hst|].
    rewrite Ho by auto. apply V.
Qed.

(** A step that only touches latches. *)
Lemma minv_latch s Ls t sh' sx' xl' p' :
  minv s Ls ->
  lok sh' sx' xl' (holdS (supd (mth s) t p')) (holdX (supd (mth s) t p')) (holdW (supd (mth s) t p')) ->
  pcok Ls (mch s) (mrt s) (mfr s) p' ->
  (forall x, mstat (mth s t) x -> mstat p' x) ->
  minv (m_emit (MCfg (mch s) (mrt s) (mfr s) sh' sx' xl' (supd (mth s) t p') (mpg s) (mtr s)) LTau) Ls.
Proof.
  intros V HL Hp Hs.
  apply (minv_step s Ls t (mch s) (mrt s) (mfr s) sh' sx' xl' p' (mpg s) LTau Ls []); auto; try apply V.
  - apply keeps_refl.
  - exact Logic.I.
  - apply Hs. apply V.
Qed.

End MConcInv.
