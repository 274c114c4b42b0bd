(** Executions without overlap: what HasRecord reports is the next record of the map.  This
    file is proof-side only. *)
From Coq Require Import List Arith Bool Lia Sorted.
From Verif Require Import Params Mem Common Spec ConcSpec ScanSpec NodeAbs SLIface BaseIface MLIface
  IterModel IterProofs TreeState Levels TreeHeap LevelOps SLModel SLSearch SLProofs MLModel MLSearch MLSteps
  ConcModel ConcLin ConcInv MConcModel MConcInv MConcSteps MConcMain OLaws OConcModel OConcInv OConcSteps
  OConcMain OConcCalm CScanModel CScanLin CScanProofs MScanModel MScanProofs MLeak OScanModel OScanProofs
  OScanMain SeqHist AloneModel AloneProofs.
Import ListNotations.

Section AloneExact.
Context {P : Params} {O : OrdLaws P} {N : MLOps P} {LW : MLLaws P N} {OW : OMLaws P N LW}.
#[local] Existing Instance base_of_ml.
#[local] Existing Instance base_laws_of_ml.
#[local] Existing Instance no_leak.

(** ** Histories *)
Lemma ostep_label fx t s l s' : ostep fx t s = XOk l s' ->
  (oth s t = OIdle /\ (exists c, l = LInv t c) /\ oth s' t <> OIdle) \/
  (oth s t <> OIdle /\ ((exists r, l = LRes t r) /\ oth s' t = OIdle \/ events [l] = [] /\ oth s' t <> OIdle)).
Proof.
  intros Hs. unfold ostep, xbind in Hs. cbv zeta in Hs.
  repeat (match type of Hs with context [match ?x with _ => _ end] => destruct x eqn:? end; try discriminate);
    injection Hs as <- <-;
    cbn [o_goto o_set o_new o_root o_own o_retire o_emit o_begin o_end och ort ofr ovs osx ogb oac oth opg otr];
    unfold supd; rewrite Nat.eqb_refl.
  all: first [left; split; [reflexivity|split; [eauto|discriminate]] | right; split; [discriminate|]; (left; split; [eauto|reflexivity]) || (right; split; [reflexivity|discriminate])].
Qed.

Definition whist (w : inside) (s : ucfg) : Prop :=
  match w with
  | InCall t => oth (ub s) t <> OIdle /\ exists l c, unmark (uhistory s) = pairs l ++ [EInv t c]
  | _ => exists l, unmark (uhistory s) = pairs l
  end.

Lemma hist_ev T l : unmark (mevents (T ++ [Ev l])) = unmark (mevents T) ++ events [l].
Proof. rewrite mevents_app. rewrite unmark_app. f_equal. destruct l; reflexivity. Qed.
Lemma hist_mk T m : unmark (mevents (T ++ [Mk m])) = unmark (mevents T).
Proof. rewrite mevents_app, unmark_app. cbn. apply app_nil_r. Qed.

Lemma whist_step w v s s' lw : wok w s lw -> whist w s -> allowed w v = true -> ustep false v s = UOk s' ->
  whist (moved w v s s') s'.
Proof.
  intros W H Ha E. destruct v as [t|u chk|u]; cbn [ustep moved] in *.
  - destruct (uth s t); try discriminate. destruct (ostep false t (ub s)) as [l c| |] eqn:Eo; try discriminate.
    injection E as <-. cbn [ub]. change (oth (o_emit c l) t) with (oth c t).
    destruct (ostep_label _ _ _ _ _ Eo) as [(H1 & (d & ->) & H2)|(H1 & [((r & ->) & H2)|(Hl & H2)])].
    + assert (Q : exists p, unmark (uhistory s) = pairs p).
      { destruct w; cbn in Ha; try discriminate; [exact H|]. apply Nat.eqb_eq in Ha. subst. destruct H. congruence. }
      destruct Q as (p & Q). assert (X : whist (InCall t) (UCfg (o_emit c (LInv t d)) (uth s) (uq s) (ulg s ++ [Ev (LInv t d)]))).
      { split; [exact H2|]. exists p, d. unfold uhistory in *. cbn [ulg]. rewrite hist_ev, Q. reflexivity. }
      destruct (oth c t); [congruence|exact X..].
    + rewrite H2. destruct w; cbn in Ha; try discriminate.
      { rewrite (w_call _ _ _ W t) in H1; [congruence|discriminate]. }
      apply Nat.eqb_eq in Ha. subst. destruct H as (_ & p & d & Q). exists (p ++ [(t0, d, r)]).
      unfold uhistory in *. cbn [ulg]. rewrite hist_ev, Q, pairs_snoc, <- app_assoc. reflexivity.
    + destruct w; cbn in Ha; try discriminate.
      { rewrite (w_call _ _ _ W t) in H1; [congruence|discriminate]. }
      apply Nat.eqb_eq in Ha. subst. destruct H as (_ & p & d & Q).
      assert (X : whist (InCall t0) (UCfg (o_emit c l) (uth s) (uq s) (ulg s ++ [Ev l]))).
      { split; [exact H2|]. exists p, d. unfold uhistory in *. cbn [ulg]. now rewrite hist_ev, Q, Hl, app_nil_r. }
      destruct (oth c t0); [congruence|exact X..].
  - assert (Hw : exists l, unmark (uhistory s) = pairs l) by (destruct w; cbn in Ha; try discriminate; exact H).
    assert (Hh : unmark (uhistory s') = unmark (uhistory s)).
    { unfold scano_step in E. destruct (uth s u) eqn:Eu; unfold ubind, u_goto, u_done in E;
        repeat (match type of E with context [match ?x with _ => _ end] => destruct x eqn:? end; try discriminate);
        injection E as <-; unfold uhistory; cbn [ulg]; rewrite ?hist_mk; reflexivity. }
    rewrite <- Hh in Hw. destruct w; cbn in Ha; try discriminate; unfold has_over;
      repeat match goal with |- context [match ?x with _ => _ end] => destruct x end; exact Hw.
  - assert (Hw : exists l, unmark (uhistory s) = pairs l) by (destruct w; cbn in Ha; try discriminate; exact H).
    unfold stop_step in E. destruct (uth s u); try discriminate. injection E as <-. exact Hw.
Qed.

(** ** A scan that begins with this HasRecord *)
Definition vp (b : bound) (n : nat) (p : upc) : upc :=
  match p with
  | UReset _ hi a kk acc => UReset b hi a kk (skipn n acc)
  | UPos _ hi a ver kk acc => UPos b hi a ver kk (skipn n acc)
  | UEnd _ hi a ver kk pos acc => UEnd b hi a ver kk pos (skipn n acc)
  | ULoop _ hi a ver kk pos e ie acc => ULoop b hi a ver kk pos e ie (skipn n acc)
  | URet _ hi acc => URet b hi (skipn n acc)
  | _ => p
  end.
Definition mid (p : upc) : bool :=
  match p with UReset _ _ _ _ _ | UPos _ _ _ _ _ _ | UEnd _ _ _ _ _ _ _ | ULoop _ _ _ _ _ _ _ _ _ => true | _ => false end.

Definition vcfg (z : ucfg) (u : tid) (p : upc) : ucfg := UCfg (ub z) (supd (uth z) u p) (uq z) (ulg z).

Lemma skip_snoc {A} n (l : list A) x : n <= length l -> skipn n (l ++ [x]) = skipn n l ++ [x].
Proof. intros H. rewrite skipn_app. replace (n - length l) with 0 by lia. reflexivity. Qed.

Lemma lockstep z u chk b n z' : mid (uth z u) = true -> n <= length (given (uth z u)) ->
  scano_step u chk z = UOk z' ->
  exists p1, z' = vcfg z u p1 /\ ubounds p1 = ubounds (uth z u) /\
    (given p1 = given (uth z u) \/ length (given p1) <> length (given (uth z u)) /\
       exists lo hi a ver kk pos e ie acc, uth z u = ULoop lo hi a ver kk pos e ie acc) /\
    scano_step u chk (vcfg z u (vp b n (uth z u))) = u_goto (vcfg z u (vp b n (uth z u))) u (vp b n p1).
Proof.
  intros Hm Hn E. unfold scano_step in *. unfold vcfg at 2. cbn [uth ub]. unfold supd at 1. rewrite Nat.eqb_refl.
  destruct (uth z u) eqn:Eu; try discriminate; cbn [given vp] in *; unfold ubind, u_goto in E.
  all: repeat (match type of E with context [match ?x with _ => _ end] =>
      match type of x with upc => fail 1 | _ => destruct x eqn:? end end; try discriminate).
  all: injection E as <-; eexists; (split; [reflexivity|]); (split; [reflexivity|]);
    (split; [first [left; reflexivity|right; split; [cbn [given]; rewrite app_length; cbn; lia|eauto 12]]|]); cbn [vp vcfg ub ubind].
  all: repeat match goal with H : _ = _ |- _ => progress rewrite ?H; cbn [ubind] end; rewrite ?skip_snoc by auto; try reflexivity.
Qed.

Definition jat (lw : addr -> ext) (a : addr) (kk : bound) : Prop :=
  match kk with Some (key, _) => ele (lw a) (Key key) | None => lw a = NegInf end.
Definition lob (p : upc) : bound := match ubounds p with Some (lo, _) => lo | None => None end.
Definition from (p : upc) : bound := last_bound (lob p) (given p).
Definition virt (z : ucfg) (lw : addr -> ext) (u : tid) (p : upc) : Prop :=
  mvb (from p) /\ ubody true (ub z) lw u (length (otr (ub z))) (vp (from p) (length (given p)) p).

Section Has.
Context (z : ucfg) (Ls : list lvl) (hv : addr -> option mn) (lw : addr -> ext) (u : tid).
Context (Q : uinv true z Ls hv lw).

Lemma scanner lo hi : ubounds (uth z u) = Some (lo, hi) ->
  mvb lo /\ mvb hi /\ exists i0, i0 <= length (otr (ub z)) /\ ubody true (ub z) lw u i0 (uth z u).
Proof.
  intros E. pose proof (u_scan _ _ _ _ _ Q u) as H. unfold upc_ok in H. rewrite E in H.
  destruct H as (_ & _ & V1 & V2 & i0 & Hr & Hb). split; [auto|]. split; [auto|]. exists i0. split; [|auto].
  rewrite (u_log _ _ _ _ _ Q). eapply running_len; eauto.
Qed.

Lemma virt_start lo hi a ver kk pos e ie acc : uth z u = ULoop lo hi a ver kk pos e ie acc ->
  kk = from (uth z u) -> jat lw a kk -> ~ (ie = true /\ e <= pos) -> virt z lw u (uth z u).
Proof.
  intros E Hk J He. destruct (scanner lo hi) as (V1 & V2 & i0 & Hi0 & Hb); [now rewrite E|].
  unfold virt. rewrite <- Hk. rewrite E in *. cbn [ubody vp given] in *.
  destruct Hb as ((Hp & Vk & Hh) & Hs & _). split; [exact Vk|]. rewrite skipn_all.
  split; [|split; [exact Hs|intros _ H1 H2; exfalso; apply He; auto]].
  split; [exact Hp|]. split; [exact Vk|]. intros _. split; [|split].
  - split; [constructor|]. split; [intros k v []|]. intros k Ha _ Hq _. exfalso.
    destruct Hq as [Hq|Hq]; [destruct kk as [[key c]|]; [auto|exact Hq]|].
    destruct kk as [[key c]|]; cbn [jat] in J.
    + apply (ele_elt_trans _ _ _ J) in Hq || idtac.
      assert (Hkk : kle key k) by (destruct c; cbn in Ha; [exact Ha|now apply klt_kle]).
      apply J. eapply ele_elt_trans; [apply kle_ele; exact Hkk|exact Hq].
    + rewrite J in Hq. exact Hq.
  - destruct kk as [[key [|]]|]; cbn; auto. intros k v [].
  - auto.
Qed.

Lemma virt_begin lo hi a ver kk pos acc : uth z u = UEnd lo hi a ver kk pos acc ->
  acc = [] -> kk = lo -> jat lw a kk -> virt z lw u (uth z u).
Proof.
  intros E Hg Hk J. destruct (scanner lo hi) as (V1 & V2 & i0 & Hi0 & Hb); [now rewrite E|].
  unfold virt, from, lob. rewrite E in *. cbn [ubody vp given ubounds] in *. subst acc kk. unfold last_bound. cbn [rev].
  destruct Hb as ((Hp & Vk & Hh) & Hs). split; [exact Vk|]. cbn [length skipn].
  split; [|exact Hs]. split; [exact Hp|]. split; [exact Vk|]. intros _. split; [|split].
  - split; [constructor|]. split; [intros k v []|]. intros k Ha _ Hq _. exfalso.
    destruct Hq as [Hq|Hq]; [destruct lo as [[key c]|]; [auto|exact Hq]|].
    destruct lo as [[key c]|]; cbn [jat] in J.
    + assert (Hkk : kle key k) by (destruct c; cbn in Ha; [exact Ha|now apply klt_kle]).
      apply J. eapply ele_elt_trans; [apply kle_ele; exact Hkk|exact Hq].
    + rewrite J in Hq. exact Hq.
  - destruct lo as [[key [|]]|]; cbn; auto. intros k v [].
  - auto.
Qed.

Lemma virt_step chk z' : mid (uth z u) = true -> scan_ok (ub z) (uth z u) = true -> virt z lw u (uth z u) ->
  scano_step u chk z = UOk z' ->
  exists p1, z' = vcfg z u p1 /\ ubounds p1 = ubounds (uth z u) /\
    (given p1 = given (uth z u) \/ length (given p1) <> length (given (uth z u)) /\
       exists lo hi a ver kk pos e ie acc, uth z u = ULoop lo hi a ver kk pos e ie acc) /\
    ubody true (ub z) lw u (length (otr (ub z))) (vp (from (uth z u)) (length (given (uth z u))) p1).
Proof.
  intros Hm Hok (Vb & Hb) E.
  destruct (lockstep z u chk (from (uth z u)) (length (given (uth z u))) z' Hm (le_n _) E) as (p1 & -> & Eb & Eg & Ev).
  exists p1. split; [reflexivity|]. split; [auto|]. split; [auto|].
  set (p := uth z u) in *. set (vv := vp (from p) (length (given p)) p) in *.
  assert (Hth : uth (vcfg z u vv) u = vv) by (unfold vcfg; cbn; unfold supd; now rewrite Nat.eqb_refl).
  assert (Hbd : exists lo hi, ubounds p = Some (lo, hi)) by (destruct p; try discriminate; cbn; eauto).
  destruct Hbd as (lo & hi & Ebd). destruct (scanner lo hi Ebd) as (V1 & V2 & _).
  assert (Ebv : ubounds vv = Some (from p, hi)).
  { unfold vv. destruct p; try discriminate; cbn in Ebd |- *; now injection Ebd as -> ->. }
  assert (Hokv : scan_ok (ub z) vv = true) by (unfold vv; destruct p; try discriminate; exact Hok).
  destruct (uscan_body true (vcfg z u vv) Ls hv lw (length (otr (ub z))) u (u_base _ _ _ _ _ Q) (u_garb _ _ _ _ _ Q)
    (le_n _) chk (from p) hi) as [(acc & Ea)|(p' & E' & _ & Hb')].
  - now rewrite Hth.
  - exact Vb.
  - exact V2.
  - now rewrite Hth.
  - intros _. now rewrite Hth.
  - exfalso. rewrite Hth in Ea. unfold vv in Ea. destruct p; discriminate.
  - rewrite Ev in E'. unfold u_goto in E'. injection E' as E'.
    assert (X : vp (from p) (length (given p)) p1 = p').
    { apply (f_equal (fun f => f u)) in E'. unfold supd in E'. now rewrite Nat.eqb_refl in E'. }
    rewrite X. exact Hb'.
Qed.

(** The record that is delivered. *)
Lemma loop_gives chk lo hi a ver kk pos e ie acc p1 : uth z u = ULoop lo hi a ver kk pos e ie acc ->
  scano_step u chk z = UOk (vcfg z u p1) -> length (given p1) <> length acc ->
  exists k v, p1 = ULoop lo hi a ver (Some (k, false)) (S pos) e ie (acc ++ [(k, v)]) /\ ele (lw a) (Key k).
Proof.
  intros E Hs Hg. destruct (scanner lo hi) as (V1 & V2 & i0 & Hi0 & Hb); [now rewrite E|]. rewrite E in Hb.
  destruct Hb as ((((n' & En & Ei) & _) & _) & (_ & Hsame) & _).
  assert (Hth : forall p, u_goto z u p = UOk (vcfg z u p1) -> p = p1).
  { intros p H. unfold u_goto, vcfg in H. injection H as H. apply (f_equal (fun f => f u)) in H.
    unfold supd in H. now rewrite Nat.eqb_refl in H. }
  unfold scano_step in Hs. rewrite E in Hs. destruct (pos <? e) eqn:Ep.
  2:{ exfalso. apply Hg. unfold ubind in Hs.
      repeat (match type of Hs with context [match ?x with _ => _ end] => destruct x eqn:? end; try discriminate);
        apply Hth in Hs; subst p1; reflexivity. }
  destruct (opage (ub z) a) as [n|] eqn:Epg; [|discriminate]. apply opage_och in Epg. assert (n' = n) by congruence. subst n'.
  cbn [ubind] in Hs. destruct (chk && Nat.eqb (ovs (ub z) a) ver) eqn:Hc; [|apply Hth in Hs; subst p1; now elim Hg].
  apply andb_true_iff in Hc as (_ & Hc). apply Nat.eqb_eq in Hc. destruct (Hsame Hc) as (n' & En' & Hr & _ & Hep).
  assert (n' = n) by congruence. subst n'. apply Nat.ltb_lt in Ep.
  destruct (leaf_facts_o z Ls hv lw (u_base _ _ _ _ _ Q) a n En Ei (Hr eq_refl)) as (A & HA & _ & _ & _ & Hrng & _).
  destruct HA as (HrA & HiA & HokA). destruct (M_endpos n A hi HrA HiA HokA V2) as (ie' & e' & Ee' & Hes).
  rewrite Hep in Ee'. injection Ee' as <- <-.
  assert (He : e <= length (a_slots A)).
  { destruct Hes as (_ & He). destruct ie; [|destruct hi as [[]|]; lia].
    destruct hi as [[k c]|]; [|lia]. destruct He as (l1 & l2 & -> & -> & _). rewrite app_length. lia. }
  destruct (nth_error_ex (a_slots A) pos) as [y Hy]; [lia|].
  destruct (M_record _ _ _ _ HrA HiA HokA Hy) as (Ed & Ek & Hrec).
  pose proof HokA as (Hsl & _). rewrite Forall_forall in Hsl.
  destruct (Hsl y (nth_error_In _ _ Hy)) as (k & v & Hk & Hv). rewrite Ek, Hk, Ed in Hs. cbn [ubind] in Hs.
  destruct (s_del y) eqn:Edel; [apply Hth in Hs; subst p1; now elim Hg|].
  rewrite (Hrec k v Hk Hv eq_refl) in Hs. cbn [ubind] in Hs. apply Hth in Hs. subst p1.
  exists k, v. split; [reflexivity|]. apply Hrng. apply in_keys_of. exists y. split; [eapply nth_error_In; eauto|auto].
Qed.
End Has.

Lemma ubody_lw (b : ocfg) (hv : addr -> option mn) (lw lw' : addr -> ext) u i0 p : (forall x, och b x <> None -> lw' x = lw x) -> In u (oac b) ->
  ubody true b lw u i0 p -> ubody true b lw' u i0 p.
Proof.
  intros Hl Hu. assert (F : frame b b hv hv lw lw' (S u)) by (split; auto).
  apply (ubody_later true b b hv hv lw lw' (S u) u F ltac:(lia) Hu []); [now rewrite app_nil_r|auto].
Qed.

Definition xpc (w : inside) (z : ucfg) (lw : addr -> ext) (u : tid) (p : upc) : Prop :=
  match p with
  | UReset _ _ a kk _ | UPos _ _ a _ kk _ | UEnd _ _ a _ kk _ _ =>
      (w = InScan u -> given p = [] /\ kk = lob p /\ jat lw a kk) /\ (w = InHas u -> virt z lw u p)
  | ULoop _ _ a _ kk _ _ _ _ =>
      (w = InHas u -> virt z lw u p) /\ (w <> InHas u -> kk = from p /\ jat lw a kk)
  | _ => True
  end.

Section Step.
Context (w : inside) (s z : ucfg) (Ls : list lvl) (hv : addr -> option mn) (lw : addr -> ext).
Context (S : usim s z) (Q : uinv true z Ls hv lw) (W : wok w s lw).
Context (X : forall u, xpc w z lw u (uth s u)).

Lemma jat_lw lw' a kk : lw' a = lw a -> jat lw a kk -> jat lw' a kk.
Proof. unfold jat. now intros ->. Qed.

Lemma xrests x w' z' lw' : w <> InScan x -> w <> InHas x -> w' <> InHas x ->
  (forall a, och (ub z) a <> None -> lw' a = lw a) -> xpc w' z' lw' x (uth s x).
Proof.
  intros H1 H2 H3 Hl. pose proof (w_scan _ _ _ W x) as H. pose proof (X x) as HX.
  destruct (uth s x) eqn:E; cbn [wpc xpc] in *; auto.
  1,2,3: destruct H as ([?|?] & _); congruence.
  destruct HX as (_ & HX). destruct (HX H2) as (HX1 & HX2). split; [congruence|]. intros _. split; [auto|].
  destruct (body_of s z Ls hv lw S Q x lo hi) as (i0 & Hb); [now rewrite E|]. rewrite E in Hb.
  destruct Hb as ((((n & En & _) & _) & _) & _). eapply jat_lw; [|exact HX2]. apply Hl. congruence.
Qed.

(** HasRecord goes on, or delivers the next record. *)
Lemma has_step u chk z' lw' : mid (uth z u) = true -> scan_ok (ub z) (uth z u) = true -> virt z lw u (uth z u) ->
  In u (oac (ub z)) -> scano_step u chk z = UOk z' -> (forall a, och (ub z) a <> None -> lw' a = lw a) ->
  exists p1, z' = vcfg z u p1 /\ ubounds p1 = ubounds (uth z u) /\
    (given p1 = given (uth z u) /\ virt z' lw' u p1 \/
     exists lo hi a ver kk pos e ie acc k v, uth z u = ULoop lo hi a ver kk pos e ie acc /\
       p1 = ULoop lo hi a ver (Some (k, false)) (1 + pos) e ie (acc ++ [(k, v)]) /\ jat lw' a (Some (k, false)) /\
       next_record (effs amap_empty (otr (ub z))) (from (uth z u)) hi k v).
Proof.
  intros Hm Hok Hv Hu E Hl.
  destruct (virt_step z Ls hv lw u Q chk z' Hm Hok Hv E) as (p1 & -> & Eb & Eg & Hb).
  exists p1. split; [auto|]. split; [auto|]. destruct Eg as [Eg|(Eg & lo & hi & a & ver & kk & pos & e & ie & acc & EL)].
  - left. split; [auto|]. unfold virt. unfold from, lob. rewrite Eb, Eg. destruct Hv as (Hv & _). split; [exact Hv|].
    cbn [vcfg ub]. eapply ubody_lw; eauto.
  - right. rewrite EL in Eg. cbn [given] in Eg.
    destruct (loop_gives z Ls hv lw u Q chk lo hi a ver kk pos e ie acc p1 EL E Eg) as (k & v & -> & Hlow).
    exists lo, hi, a, ver, kk, pos, e, ie, acc, k, v. split; [auto|]. split; [auto|].
    destruct (scanner z Ls hv lw u Q lo hi) as (_ & _ & i0 & _ & Hb0); [now rewrite EL|]. rewrite EL in Hb0.
    destruct Hb0 as ((((n & En & _) & _) & _) & _).
    split. { eapply jat_lw; [|exact Hlow]. apply Hl. congruence. }
    set (b := from (uth z u)) in *. rewrite EL in Hb. cbn [vp given ubody] in Hb.
    rewrite skip_snoc, skipn_all in Hb by auto. cbn [app] in Hb.
    destruct Hb as ((_ & _ & Hh) & _). destruct (Hh eq_refl) as ((_ & H2 & H3) & _).
    assert (Hnow : forall j x, length (otr (ub z)) <= j <= length (otr (ub z)) ->
              mapat amap_empty (otr (ub z)) j x = effs amap_empty (otr (ub z)) x).
    { intros j x Hj. replace j with (length (otr (ub z))) by lia. apply now_at. }
    destruct (H2 k v (or_introl eq_refl)) as (A1 & A2 & j & Hj & A3). rewrite Hnow in A3 by auto.
    split; [auto|]. split; [auto|]. split; [auto|]. intros x Hx Hlt.
    destruct (effs amap_empty (otr (ub z)) x) as [vx|] eqn:Ex; [|auto]. exfalso.
    assert (Hin : In x (map fst [(k, v)])).
    { apply H3; auto.
      - destruct hi as [[h [|]]|]; cbn in *; auto; [eapply klt_kle, klt_le_trans|eapply klt_trans]; eauto.
      - left. cbn. intros Hxk. eapply klt_asym; eauto.
      - intros j' Hj'. rewrite Hnow by auto. congruence. }
    destruct Hin as [Hin|[]]. cbn in Hin. subst x. now apply klt_irrefl in Hlt.
Qed.
(** Scan goes on. *)
Lemma hop_low a n key c lw' : och (ub z) a = Some n -> mn_inner n = false -> ele (lw a) (Key key) ->
  oin n key = Some false -> mn_next n = Some c -> (forall x, och (ub z) x <> None -> lw' x = lw x) ->
  ele (lw' c) (Key key).
Proof.
  intros En Hi Hk Ho Hn Hl. pose proof (i_okp _ _ _ _ (u_base _ _ _ _ _ Q) a n En) as H. unfold okp in H.
  unfold oin in Ho. destruct (mn_removed n).
  - destruct (H Hi) as (_ & y & ny & Hy & Hh & _ & Hlt). assert (y = c) by congruence. subst y.
    rewrite Hl by congruence. intros Hx. apply Hk. eapply elt_trans; eauto.
  - destruct H as (_ & H). rewrite Hi in H. destruct (H key Hk Ho) as (y & ny & Hy & Hh & _ & Hlt).
    assert (y = c) by congruence. subst y. rewrite Hl by congruence. exact Hlt.
Qed.

Lemma scan_goes u chk z' lw' : w = InScan u -> scano_step u chk z = UOk z' ->
  (forall a, och (ub z) a <> None -> lw' a = lw a) ->
  xpc (moved w (UScan u chk) z z') z' lw' u (uth z' u) /\
  forall k v, given (uth z' u) <> given (uth z u) ++ [(k, v)].
Proof.
  intros Hw E Hl. pose proof (w_scan _ _ _ W u) as Hp. rewrite <- (us_th _ _ S) in Hp.
  pose proof (X u) as HX. rewrite <- (us_th _ _ S) in HX. cbn [moved]. rewrite Hw.
  assert (Hgo : forall p, u_goto z u p = UOk z' ->
            xpc match p with ULoop _ _ _ _ _ _ _ _ _ => Nobody | _ => InScan u end z' lw' u p ->
            (forall k v, given p <> given (uth z u) ++ [(k, v)]) ->
            xpc match uth z' u with ULoop _ _ _ _ _ _ _ _ _ => Nobody | _ => InScan u end z' lw' u (uth z' u) /\
            forall k v, given (uth z' u) <> given (uth z u) ++ [(k, v)]).
  { intros p [= <-] H1 H2. cbn [uth]. unfold supd. rewrite Nat.eqb_refl. auto. }
  assert (Hne : forall (l : list (K * V)) k v, l <> l ++ [(k, v)]).
  { intros l k v H. apply (f_equal (@length _)) in H. rewrite app_length in H. cbn in H. lia. }
  unfold scano_step in E. destruct (uth z u) eqn:Eu; cbn [wpc xpc] in *.
  - destruct (oth (ub z) u); try discriminate. destruct (uq z u) as [|[lo hi] q]; try discriminate.
    injection E as <-. cbn [uth]. unfold supd. rewrite Nat.eqb_refl. cbn. split; [exact Logic.I|discriminate].
  - apply (Hgo _ E); [exact Logic.I|discriminate].
  - destruct (scanner z Ls hv lw u Q lo hi) as (_ & _ & i0 & _ & Hb); [now rewrite Eu|]. rewrite Eu in Hb.
    destruct Hb as (B1 & _ & B3). unfold ubind in E.
    repeat (match type of E with context [match ?x with _ => _ end] => destruct x eqn:? end; try discriminate);
      (apply (Hgo _ E); [|discriminate]); try exact Logic.I.
    all: cbn [xpc]; split; [|discriminate]; intros _; split; [reflexivity|]; split; [reflexivity|]; (eapply jat_lw; [|exact B3]); auto.
  - destruct (proj1 HX Hw) as (Hg & Hk & J).
    destruct (scanner z Ls hv lw u Q lo hi) as (_ & _ & i0 & _ & Hb); [now rewrite Eu|]. rewrite Eu in Hb.
    destruct Hb as (((n & En & Hi) & _) & _). assert (J' : jat lw' a kk) by (eapply jat_lw; [|exact J]; apply Hl; congruence).
    unfold ubind in E. destruct (opage (ub z) a) as [m|] eqn:Epg; [|discriminate]. apply opage_och in Epg.
    assert (m = n) by congruence. subst m. unfold lob in Hk. cbn [given ubounds] in Hk, Hg. subst acc.
    destruct kk as [[key c]|].
    + destruct (oin n key) as [[|]|] eqn:Eo; try discriminate.
      * apply (Hgo _ E); [|cbn [given]; auto]. cbn [xpc]. split; [|discriminate]. intros _. cbn [given]. auto.
      * destruct (mn_next n) as [y|] eqn:En'; try discriminate. apply (Hgo _ E); [|cbn [given]; auto].
        cbn [xpc]. split; [|discriminate]. intros _. cbn [given]. split; [auto|]. split; [auto|]. cbn [jat].
        eapply hop_low; eauto.
    + apply (Hgo _ E); [|cbn [given]; auto]. cbn [xpc]. split; [|discriminate]. intros _. cbn [given]. auto.
  - destruct (proj1 HX Hw) as (Hg & Hk & J).
    destruct (scanner z Ls hv lw u Q lo hi) as (_ & _ & i0 & _ & Hb); [now rewrite Eu|]. rewrite Eu in Hb.
    destruct Hb as ((((n & En & Hi) & _) & _) & _). assert (J' : jat lw' a kk) by (eapply jat_lw; [|exact J]; apply Hl; congruence).
    unfold ubind in E. repeat (match type of E with context [match ?x with _ => _ end] => destruct x eqn:? end; try discriminate).
    apply (Hgo _ E); [|cbn [given]; auto]. cbn [xpc]. split; [|discriminate]. intros _. auto.
  - destruct (proj1 HX Hw) as (Hg & Hk & J).
    destruct (scanner z Ls hv lw u Q lo hi) as (_ & _ & i0 & _ & Hb); [now rewrite Eu|]. rewrite Eu in Hb.
    destruct Hb as ((((n & En & Hi) & _) & _) & _). assert (J' : jat lw' a kk) by (eapply jat_lw; [|exact J]; apply Hl; congruence).
    unfold ubind in E. repeat (match type of E with context [match ?x with _ => _ end] => destruct x eqn:? end; try discriminate).
    apply (Hgo _ E); [|cbn [given]; auto]. cbn [xpc]. split; [discriminate|]. intros _.
    cbn [given] in Hg. subst acc. unfold from. cbn [given]. unfold last_bound, lob in *. cbn [rev ubounds] in *. auto.
  - destruct Hp as (Hp & _). congruence.
  - unfold u_done in E. injection E as <-. cbn [uth]. unfold supd. rewrite Nat.eqb_refl. cbn.
    split; [exact Logic.I|]. intros k v H. destruct acc; discriminate.
Qed.

Lemma scan_exact u chk z' lw' : allowed w (UScan u chk) = true -> scano_step u chk z = UOk z' ->
  (forall a, och (ub z) a <> None -> lw' a = lw a) ->
  xpc (moved w (UScan u chk) z z') z' lw' u (uth z' u) /\
  forall k v lo hi, ubounds (uth z u) = Some (lo, hi) -> given (uth z' u) = given (uth z u) ++ [(k, v)] ->
    next_record (effs amap_empty (otr (ub z))) (last_bound lo (given (uth z u))) hi k v.
Proof.
  intros Ha E Hl.
  assert (Hu : w = Nobody \/ w = InScan u \/ w = InHas u).
  { destruct w; cbn in Ha; try discriminate; auto; apply Nat.eqb_eq in Ha; subst; auto. }
  assert (Hd : w = InScan u \/ w <> InScan u) by (destruct Hu as [->|[->| ->]]; auto; right; discriminate).
  destruct Hd as [Hw|Hw].
  { destruct (scan_goes u chk z' lw' Hw E Hl) as (H1 & H2). split; [exact H1|]. intros k v lo hi _ H. now elim (H2 k v). }
  assert (Hn : w = Nobody \/ w = InHas u) by tauto.
  pose proof (w_scan _ _ _ W u) as Hp. rewrite <- (us_th _ _ S) in Hp.
  pose proof (X u) as HX. rewrite <- (us_th _ _ S) in HX.
  assert (Hok : scan_ok (ub z) (uth z u) = true).
  { destruct (usim_scan s z u chk true Ls hv lw S Q (step_half w s lw (UScan u chk) W Ha)) as (-> & _).
    exact (step_scan w s z Ls hv lw S Q W (UScan u chk) Ha). }
  assert (Hne : forall (l : list (K * V)) k v, l <> l ++ [(k, v)]).
  { intros l k v H. apply (f_equal (@length _)) in H. rewrite app_length in H. cbn in H. lia. }
  assert (Hin : forall lo hi, ubounds (uth z u) = Some (lo, hi) -> In u (oac (ub z))).
  { intros lo hi Eb. pose proof (u_scan _ _ _ _ _ Q u) as H. unfold upc_ok in H. rewrite Eb in H. tauto. }
  assert (Hhas : mid (uth z u) = true -> virt z lw u (uth z u) -> (w = InHas u \/ uth z u <> UIdle) ->
            xpc (moved w (UScan u chk) z z') z' lw' u (uth z' u) /\
            forall k v lo hi, ubounds (uth z u) = Some (lo, hi) -> given (uth z' u) = given (uth z u) ++ [(k, v)] ->
              next_record (effs amap_empty (otr (ub z))) (last_bound lo (given (uth z u))) hi k v).
  { intros Hm Hv _. assert (Eb : exists lo hi, ubounds (uth z u) = Some (lo, hi)) by (destruct (uth z u); try discriminate; cbn; eauto).
    destruct Eb as (lo & hi & Eb).
    assert (Em : moved w (UScan u chk) z z' = has_over u z z').
    { cbn [moved]. destruct Hn as [->| ->]; destruct (uth z u); try discriminate; reflexivity. }
    destruct (has_step u chk z' lw' Hm Hok Hv (Hin _ _ Eb) E Hl) as (p1 & Ez & Eb1 & Hc).
    assert (Et : uth z' u = p1) by (rewrite Ez; cbn; unfold supd; now rewrite Nat.eqb_refl).
    rewrite Em. unfold has_over. rewrite Et. destruct Hc as [(Eg & Hv')|Hc].
    - split.
      + destruct p1; cbn [xpc given] in *; try exact Logic.I; rewrite <- ?Eg, ?Nat.eqb_refl;
          (split; [discriminate || auto|]); auto. intros H; now elim H.
      + intros k v lo' hi' _ H. rewrite Eg in H. now elim (Hne _ _ _ H).
    - destruct Hc as (lo1 & hi1 & a & ver & kk & pos & e & ie & acc & k & v & EL & -> & J & Hnx).
      rewrite EL in *. cbn [given ubounds] in *. injection Eb as -> ->.
      rewrite app_length. cbn [length]. replace (length acc + 1 =? length acc) with false by (symmetry; apply Nat.eqb_neq; lia).
      split.
      + cbn [xpc]. split; [discriminate|]. intros _. unfold from. cbn [given]. now rewrite last_snoc.
      + intros k' v' lo' hi' [= <- <-] H. apply app_inv_head in H. injection H as <- <-. exact Hnx. }
  destruct (uth z u) eqn:Eu; cbn [wpc] in Hp; try congruence.
  - unfold scano_step in E. rewrite Eu in E.
    destruct (oth (ub z) u); try discriminate. destruct (uq z u) as [|[lo hi] q]; try discriminate.
    injection E as <-. cbn [uth]. unfold supd. rewrite Nat.eqb_refl. cbn. split; [exact Logic.I|discriminate].
  - apply Hhas; auto; [|right; discriminate]. apply (proj2 HX). tauto.
  - apply Hhas; auto; [|right; discriminate]. apply (proj2 HX). tauto.
  - apply Hhas; auto; [|right; discriminate]. apply (proj2 HX). tauto.
  - destruct (ie && (e <=? pos)) eqn:Eend.
    + apply andb_true_iff in Eend as (-> & Hep). unfold scano_step in E. rewrite Eu in E.
      apply Nat.leb_le in Hep. destruct (Nat.ltb_spec pos e) as [Hlt|_]; [lia|]. injection E as <-. cbn [uth]. unfold supd.
      rewrite Nat.eqb_refl. cbn [xpc given]. split; [exact Logic.I|]. intros k v lo' hi' _ H. now elim (Hne _ _ _ H).
    + apply Hhas; auto; [|right; discriminate]. cbn [xpc] in HX. destruct Hn as [Hn|Hn]; [|now apply (proj1 HX)].
      destruct (proj2 HX) as (Hk & J); [congruence|]. rewrite <- Eu in Hk |- *.
      eapply virt_start; eauto. intros (-> & He). apply Nat.leb_le in He. rewrite He in Eend. discriminate.
  - unfold scano_step in E. rewrite Eu in E. unfold u_done in E. injection E as <-. cbn [uth]. unfold supd.
    rewrite Nat.eqb_refl. cbn. split; [exact Logic.I|]. intros k v lo' hi' _ H. destruct acc; discriminate.
Qed.

(** When HasRecord has looked at the leaf and finds nothing more, there is nothing more. *)
Lemma end_exact u chk z' lw' lo hi acc : w = InHas u -> scano_step u chk z = UOk z' ->
  (forall a, och (ub z) a <> None -> lw' a = lw a) ->
  (forall acc', uth z u <> URet lo hi acc') -> uth z' u = URet lo hi acc ->
  forall k, above (last_bound lo acc) k -> below hi k -> effs amap_empty (otr (ub z)) k = None.
Proof.
  intros Hw E Hl Hr Er k Ha Hb.
  assert (Hal : allowed w (UScan u chk) = true) by (rewrite Hw; cbn; apply Nat.eqb_refl).
  pose proof (w_scan _ _ _ W u) as Hp. rewrite <- (us_th _ _ S) in Hp.
  pose proof (X u) as HX. rewrite <- (us_th _ _ S) in HX.
  assert (Hok : scan_ok (ub z) (uth z u) = true).
  { destruct (usim_scan s z u chk true Ls hv lw S Q (step_half w s lw (UScan u chk) W Hal)) as (-> & _).
    exact (step_scan w s z Ls hv lw S Q W (UScan u chk) Hal). }
  assert (Hm : mid (uth z u) = true /\ virt z lw u (uth z u)).
  { destruct (uth z u) eqn:Eu; cbn [wpc xpc mid] in *; try congruence; try (split; [reflexivity|now apply HX]).
    - exfalso. unfold scano_step in E. rewrite Eu in E.
      destruct (oth (ub z) u); try discriminate. destruct (uq z u) as [|[? ?] ?]; try discriminate.
      injection E as <-. cbn [uth] in Er. unfold supd in Er. rewrite Nat.eqb_refl in Er. discriminate.
    - exfalso. unfold scano_step in E. rewrite Eu in E. unfold u_done in E. injection E as <-. cbn [uth] in Er.
      unfold supd in Er. rewrite Nat.eqb_refl in Er. discriminate. }
  destruct Hm as (Hm & Hv).
  assert (Hin : In u (oac (ub z))).
  { pose proof (u_scan _ _ _ _ _ Q u) as H. unfold upc_ok in H. destruct (uth z u); try discriminate Hm; cbn [ubounds] in H; tauto. }
  destruct (has_step u chk z' lw' Hm Hok Hv Hin E Hl) as (p1 & Ez & Eb1 & Hc).
  assert (Et : uth z' u = p1) by (rewrite Ez; cbn; unfold supd; now rewrite Nat.eqb_refl).
  rewrite Er in Et. subst p1. destruct Hc as [(Eg & _ & Hv')|Hc].
  - unfold from, lob in Hv'. cbn [ubounds given vp ubody] in Hv'. rewrite skipn_all in Hv'.
    destruct (Hv' eq_refl) as (_ & _ & H3). rewrite Ez in H3. cbn [vcfg ub] in H3.
    destruct (effs amap_empty (otr (ub z)) k) as [v|] eqn:Ex; [|auto]. exfalso. apply (H3 k); auto.
    intros j Hj. replace j with (length (otr (ub z))) by lia. rewrite now_at. congruence.
  - destruct Hc as (? & ? & ? & ? & ? & ? & ? & ? & ? & ? & ? & _ & Hx & _). discriminate Hx.
Qed.

Lemma none_left b hi acc k : handled amap_empty (otr (ub z)) (length (otr (ub z))) b hi (fun _ => True) acc ->
  above b k -> below hi k -> ~ In k (map fst acc) -> effs amap_empty (otr (ub z)) k = None.
Proof.
  intros (_ & _ & H3) Ha Hb Hn. destruct (effs amap_empty (otr (ub z)) k) as [v|] eqn:Ex; [|auto]. exfalso.
  apply Hn, H3; auto. intros j Hj. replace j with (length (otr (ub z))) by lia. rewrite now_at. congruence.
Qed.

(** When HasRecord or Scan returns and is at the end of the last leaf, there is nothing more. *)
Lemma end_now u chk z' lo hi a ver kk pos e acc : allowed w (UScan u chk) = true -> scano_step u chk z = UOk z' ->
  uth z' u = ULoop lo hi a ver kk pos e true acc -> e <= pos -> moved w (UScan u chk) z z' <> InHas u ->
  forall k, above (last_bound lo acc) k -> below hi k -> effs amap_empty (otr (ub z)) k = None.
Proof.
  intros Hal E Ep He Hmv k Ha Hb.
  assert (Hu : w = Nobody \/ w = InScan u \/ w = InHas u).
  { destruct w; cbn in Hal; try discriminate; auto; apply Nat.eqb_eq in Hal; subst; auto. }
  pose proof (w_scan _ _ _ W u) as Hp. rewrite <- (us_th _ _ S) in Hp.
  pose proof (X u) as HX. rewrite <- (us_th _ _ S) in HX.
  assert (Hok : scan_ok (ub z) (uth z u) = true).
  { destruct (usim_scan s z u chk true Ls hv lw S Q (step_half w s lw (UScan u chk) W Hal)) as (-> & _).
    exact (step_scan w s z Ls hv lw S Q W (UScan u chk) Hal). }
  assert (Hnot : forall p, u_goto z u p = UOk z' -> p = ULoop lo hi a ver kk pos e true acc).
  { intros p [= <-]. cbn [uth] in Ep. unfold supd in Ep. now rewrite Nat.eqb_refl in Ep. }
  assert (Hm : mid (uth z u) = true /\ virt z lw u (uth z u) /\ (w <> InScan u -> mid (uth z u) = true /\ uth z u <> UIdle) /\
               (w = InScan u -> given (uth z u) = [])).
  { destruct (uth z u) eqn:Eu; cbn [wpc xpc mid] in *.
    - exfalso. unfold scano_step in E. rewrite Eu in E.
      destruct (oth (ub z) u); try discriminate. destruct (uq z u) as [|[? ?] ?]; try discriminate.
      injection E as <-. cbn [uth] in Ep. unfold supd in Ep. rewrite Nat.eqb_refl in Ep. discriminate.
    - exfalso. unfold scano_step in E. rewrite Eu in E. now apply Hnot in E.
    - exfalso. unfold scano_step in E. rewrite Eu in E. unfold ubind in E.
      repeat (match type of E with context [match ?x with _ => _ end] => destruct x eqn:? end; try discriminate); now apply Hnot in E.
    - exfalso. unfold scano_step in E. rewrite Eu in E. unfold ubind in E.
      repeat (match type of E with context [match ?x with _ => _ end] => destruct x eqn:? end; try discriminate); now apply Hnot in E.
    - exfalso. unfold scano_step in E. rewrite Eu in E. unfold ubind in E.
      repeat (match type of E with context [match ?x with _ => _ end] => destruct x eqn:? end; try discriminate); now apply Hnot in E.
    - split; [reflexivity|]. destruct Hp as ([Hp|Hp] & _).
      + destruct (proj1 HX Hp) as (Hg & Hk & J). unfold lob in Hk. cbn [given ubounds] in Hg, Hk.
        split; [rewrite <- Eu; eapply virt_begin; eauto|]. split; [congruence|auto].
      + split; [now apply HX|]. split; [split; [reflexivity|discriminate]|congruence].
    - split; [reflexivity|]. destruct Hp as (Hp & _). split; [|split; [split; [reflexivity|discriminate]|congruence]].
      destruct Hu as [Hu|[Hu|Hu]]; [|congruence|now apply HX].
      destruct (proj2 HX) as (Hk & J); [congruence|]. rewrite <- Eu in Hk |- *. eapply virt_start; eauto.
      intros (-> & He'). unfold scano_step in E. rewrite Eu in E. destruct (Nat.ltb_spec pos0 e0); [lia|]. now apply Hnot in E.
    - exfalso. unfold scano_step in E. rewrite Eu in E. unfold u_done in E. injection E as <-. cbn [uth] in Ep.
      unfold supd in Ep. rewrite Nat.eqb_refl in Ep. discriminate. }
  destruct Hm as (Hm & Hv & Hm1 & Hm2).
  destruct (virt_step z Ls hv lw u Q chk z' Hm Hok Hv E) as (p1 & Ez & Eb & Eg & Hbo).
  assert (Et : uth z' u = p1) by (rewrite Ez; cbn; unfold supd; now rewrite Nat.eqb_refl).
  rewrite Ep in Et. rewrite <- Et in Eb, Eg, Hbo. cbn [ubounds] in Eb.
  destruct Eg as [Eg|(Eg & lo0 & hi0 & a0 & ver0 & kk0 & pos0 & e0 & ie0 & acc0 & EL)].
  - cbn [given] in Eg. assert (Hw : w = InScan u).
    { destruct Hu as [Hu|[Hu|Hu]]; auto; exfalso; apply Hmv; cbn [moved]; rewrite Hu; unfold has_over; rewrite Ep, Eg, Nat.eqb_refl;
        destruct (uth z u); try discriminate Hm; reflexivity. }
    rewrite (Hm2 Hw) in *. subst acc. unfold from, lob in Hbo. rewrite <- Eb, (Hm2 Hw) in Hbo. cbn [vp ubody length skipn] in Hbo.
    destruct Hbo as (_ & _ & Hh). eapply none_left; [apply Hh; auto|exact Ha|exact Hb|intros []].
  - rewrite EL in Eg. cbn [given] in Eg. rewrite Ez, <- Et in E.
    destruct (loop_gives z Ls hv lw u Q chk lo0 hi0 a0 ver0 kk0 pos0 e0 ie0 acc0 _ EL E Eg) as (k0 & v0 & E0 & _).
    injection E0 as -> -> -> -> -> -> -> <- ->.
    rewrite last_snoc in Ha. cbn [above] in Ha. set (b := from (uth z u)) in *. rewrite EL in Hbo. cbn [vp given ubody] in Hbo.
    rewrite skip_snoc, skipn_all in Hbo by auto. cbn [app] in Hbo. destruct Hbo as (_ & _ & Hh).
    specialize (Hh eq_refl eq_refl He). pose proof Hh as (_ & H2 & _).
    destruct (H2 k0 v0 (or_introl eq_refl)) as (A1 & _). eapply none_left; [exact Hh| |exact Hb|].
    + destruct b as [[key [|]]|]; cbn in *; auto; [apply klt_kle; eapply kle_lt_trans; eauto|eapply klt_trans; eauto].
    + intros [<-|[]]. cbn in Ha. now apply klt_irrefl in Ha.
Qed.

Lemma exact_step v s' z' lw' : allowed w v = true -> ustep false v s = UOk s' -> usim s' z' ->
  (forall a, och (ub z) a <> None -> lw' a = lw a) ->
  match v with UScan u chk => scano_step u chk z = UOk z' | _ => True end ->
  forall x, xpc (moved w v s s') z' lw' x (uth s' x).
Proof.
  intros Ha E S' Hl Hz x. destruct v as [t|u chk|u]; cbn [ustep] in E.
  - destruct (uth s t) eqn:Et; try discriminate. destruct (ostep false t (ub s)) as [l c| |] eqn:Eo; try discriminate.
    injection E as <-. cbn [uth].
    assert (Hw : w = Nobody \/ w = InCall t).
    { destruct w; cbn in Ha; try discriminate; auto. apply Nat.eqb_eq in Ha. subst. auto. }
    apply xrests; auto; try (destruct Hw; congruence). cbn [moved ub]. destruct (oth _ t); discriminate.
  - assert (Em : moved w (UScan u chk) s s' = moved w (UScan u chk) z z').
    { cbn [moved]. unfold has_over. now rewrite <- !(us_th _ _ S), <- !(us_th _ _ S'). }
    rewrite Em. destruct (Nat.eq_dec x u) as [->|Hx].
    { rewrite <- (us_th _ _ S'). now apply (scan_exact u chk z' lw'). }
    assert (Ex : uth s' x = uth s x).
    { unfold scano_step in E. destruct (uth s u); unfold ubind, u_goto, u_done in E;
        repeat (match type of E with context [match ?x with _ => _ end] => destruct x eqn:? end; try discriminate);
        injection E as <-; cbn [uth]; unfold supd; destruct (Nat.eqb_spec x u); congruence. }
    rewrite Ex.
    assert (Hu : w = Nobody \/ w = InScan u \/ w = InHas u).
    { destruct w; cbn in Ha; try discriminate; auto; apply Nat.eqb_eq in Ha; subst; auto. }
    apply xrests; auto; try (destruct Hu as [|[|]]; congruence).
    cbn [moved]. unfold has_over.
    repeat match goal with |- context [match ?x with _ => _ end] => destruct x end; congruence.
  - assert (Hw : w = Nobody) by (destruct w; cbn in Ha; congruence).
    unfold stop_step in E. destruct (uth s u) eqn:Eu; try discriminate. unfold u_done in E. injection E as <-. cbn [uth].
    unfold supd. destruct (Nat.eqb_spec x u) as [->|Hx]; [exact Logic.I|]. apply xrests; auto; try congruence. discriminate.
Qed.
End Step.

Lemma events_log T : events (unmark T) = unmark (mevents T).
Proof. induction T as [|[l|m] T IH]; cbn; auto. destruct l; cbn; now rewrite IH. Qed.

Lemma one_next u chk e e' k v lo hi : ustep false (UScan u chk) e = UOk e' ->
  ubounds (uth e u) = Some (lo, hi) -> given (uth e' u) = given (uth e u) ++ [(k, v)] ->
  forall sched w s z Ls hv lw, usim s z -> uinv true z Ls hv lw -> wok w s lw -> (forall x, xpc w z lw x (uth s x)) ->
  whist w s -> one_by_one false w s (sched ++ [UScan u chk]) = true -> urun false s sched = Some e ->
  next_record (calls_map (unmark (uhistory e))) (last_bound lo (given (uth e u))) hi k v.
Proof.
  intros Ee Eb Eg. induction sched as [|m sched IH]; intros w s z Ls hv lw S Q W X H Ho Er; cbn [app one_by_one urun] in *.
  - injection Er as ->. rewrite Ee, andb_true_r in Ho.
    pose proof (step_half w e lw _ W Ho) as H1. pose proof (step_scan w e z Ls hv lw S Q W _ Ho) as H2.
    pose proof (usim_step true e z Ls hv lw _ S Q H1 (fun _ => H2)) as R. rewrite Ee in R.
    destruct R as (z' & Ls' & hv' & lw' & S' & Q' & Hl & Hz).
    destruct (scan_exact w e z Ls hv lw S Q W X u chk z' lw' Ho Hz Hl) as (_ & R).
    rewrite (us_th _ _ S), (us_th _ _ S') in R. specialize (R k v lo hi Eb Eg).
    assert (Hp : exists l, unmark (uhistory e) = pairs l) by (destruct w; cbn in Ho; try discriminate; exact H).
    destruct Hp as (l & Hp).
    assert (Em : effs amap_empty (otr (ub z)) = calls_map (pairs l)).
    { apply seq_effs; [apply (i_trace _ _ _ _ (u_base _ _ _ _ _ Q))|].
      rewrite (u_log _ _ _ _ _ Q), events_log, (us_h _ _ S). exact Hp. }
    rewrite Hp, <- Em. exact R.
  - destruct (ustep false m s) as [s'| |] eqn:E; [|eauto|discriminate].
    apply andb_true_iff in Ho as (Ha & Ho).
    pose proof (step_half w s lw m W Ha) as H1. pose proof (step_scan w s z Ls hv lw S Q W m Ha) as H2.
    pose proof (usim_step true s z Ls hv lw m S Q H1 (fun _ => H2)) as R. rewrite E in R.
    destruct R as (z' & Ls' & hv' & lw' & S' & Q' & Hl & Hz).
    apply (IH (moved w m s s') s' z' Ls' hv' lw'); auto.
    + eapply step_wok; eauto.
    + eapply exact_step; eauto.
    + eapply whist_step; eauto.
Qed.

Theorem alone_next prog scans sched u chk e e' k v lo hi :
  (forall t c, In c (prog t) -> mvalid (call_key c)) ->
  (forall x a b, In (a, b) (scans x) -> mvb a /\ mvb b) ->
  one_by_one false Nobody (uinit prog scans) (sched ++ [UScan u chk]) = true ->
  urun false (uinit prog scans) sched = Some e -> ustep false (UScan u chk) e = UOk e' ->
  ubounds (uth e u) = Some (lo, hi) -> given (uth e' u) = given (uth e u) ++ [(k, v)] ->
  next_record (calls_map (unmark (uhistory e))) (last_bound lo (given (uth e u))) hi k v.
Proof.
  intros Hp Hs Ho Er Ee Eb Eg. destruct (uinit_inv true prog scans Hp Hs) as (Ls & hv & lw & Q).
  apply (one_next u chk e e' k v lo hi Ee Eb Eg sched Nobody (uinit prog scans) (uinit prog scans) Ls hv lw); auto.
  - apply usim_init.
  - split; cbn; auto.
  - intros x. exact Logic.I.
  - exists []. reflexivity.
Qed.

(** Who is inside after the execution. *)
Lemma one_at : forall sched v w s z Ls hv lw, usim s z -> uinv true z Ls hv lw -> wok w s lw ->
  (forall x, xpc w z lw x (uth s x)) -> whist w s -> one_by_one false w s (sched ++ [v]) = true ->
  forall e e', urun false s sched = Some e -> ustep false v e = UOk e' ->
  exists z1 Ls1 hv1 lw1, usim e z1 /\ uinv true z1 Ls1 hv1 lw1 /\ wok (who false w s sched) e lw1 /\
    (forall x, xpc (who false w s sched) z1 lw1 x (uth e x)) /\ whist (who false w s sched) e /\
    allowed (who false w s sched) v = true.
Proof.
  induction sched as [|m sched IH]; intros v w s z Ls hv lw S Q W X H Ho e e' Er Ee; cbn [app one_by_one urun who] in *.
  - injection Er as ->. rewrite Ee, andb_true_r in Ho. exists z, Ls, hv, lw. auto 8.
  - destruct (ustep false m s) as [s'| |] eqn:E; [|eapply IH; eauto|discriminate].
    apply andb_true_iff in Ho as (Ha & Ho).
    pose proof (step_half w s lw m W Ha) as H1. pose proof (step_scan w s z Ls hv lw S Q W m Ha) as H2.
    pose proof (usim_step true s z Ls hv lw m S Q H1 (fun _ => H2)) as R. rewrite E in R.
    destruct R as (z' & Ls' & hv' & lw' & S' & Q' & Hl & Hz).
    apply (IH v (moved w m s s') s' z' Ls' hv' lw') with (e' := e'); auto.
    + eapply step_wok; eauto.
    + eapply exact_step; eauto.
    + eapply whist_step; eauto.
Qed.

Theorem alone_end prog scans sched u chk e e' lo hi acc :
  (forall t c, In c (prog t) -> mvalid (call_key c)) ->
  (forall x a b, In (a, b) (scans x) -> mvb a /\ mvb b) ->
  one_by_one false Nobody (uinit prog scans) (sched ++ [UScan u chk]) = true ->
  urun false (uinit prog scans) sched = Some e -> ustep false (UScan u chk) e = UOk e' ->
  who false Nobody (uinit prog scans) sched = InHas u ->
  (forall acc', uth e u <> URet lo hi acc') -> uth e' u = URet lo hi acc ->
  forall k, above (last_bound lo acc) k -> below hi k -> calls_map (unmark (uhistory e)) k = None.
Proof.
  intros Hp Hs Ho Er Ee Hw Hn Ht k Ha Hb. destruct (uinit_inv true prog scans Hp Hs) as (Ls & hv & lw & Q).
  destruct (one_at sched (UScan u chk) Nobody (uinit prog scans) (uinit prog scans) Ls hv lw) with (e := e) (e' := e')
    as (z1 & Ls1 & hv1 & lw1 & S1 & Q1 & W1 & X1 & H1 & A1); auto.
  - apply usim_init.
  - split; cbn; auto.
  - intros x. exact Logic.I.
  - exists []. reflexivity.
  - pose proof (step_half _ e lw1 _ W1 A1) as B1. pose proof (step_scan _ e z1 Ls1 hv1 lw1 S1 Q1 W1 _ A1) as B2.
    pose proof (usim_step true e z1 Ls1 hv1 lw1 _ S1 Q1 B1 (fun _ => B2)) as R. rewrite Ee in R.
    destruct R as (z' & Ls' & hv' & lw' & S' & Q' & Hl & Hz).
    rewrite Hw in *. destruct H1 as (l & Hpl).
    assert (Em : effs amap_empty (otr (ub z1)) = calls_map (pairs l)).
    { apply seq_effs; [apply (i_trace _ _ _ _ (u_base _ _ _ _ _ Q1))|].
      rewrite (u_log _ _ _ _ _ Q1), events_log, (us_h _ _ S1). exact Hpl. }
    rewrite Hpl, <- Em. eapply (end_exact (InHas u) e z1 Ls1 hv1 lw1 S1 Q1 W1 X1 u chk z' lw' lo hi acc); auto.
    + intros acc'. rewrite (us_th _ _ S1). apply Hn.
    + now rewrite (us_th _ _ S').
Qed.

(** ** The end of a scan *)
Lemma urun_snoc fx v : forall l s, urun fx s (l ++ [v]) =
  match urun fx s l with
  | Some e => match ustep fx v e with UOk e' => Some e' | UBlock => Some e | UUndef => None end
  | None => None
  end.
Proof.
  induction l as [|x l IH]; intros s; cbn [app urun].
  - destruct (ustep fx v s); reflexivity.
  - destruct (ustep fx x s); auto.
Qed.
Lemma who_snoc fx v : forall l w s e, urun fx s l = Some e -> who fx w s (l ++ [v]) =
  match ustep fx v e with UOk e' => moved (who fx w s l) v e e' | _ => who fx w s l end.
Proof.
  induction l as [|x l IH]; intros w s e; cbn [app urun who].
  - intros [= ->]. destruct (ustep fx v e); reflexivity.
  - destruct (ustep fx x s); [apply IH|apply IH|discriminate].
Qed.
Lemma one_app fx r : forall l w s, one_by_one fx w s (l ++ r) = true -> one_by_one fx w s l = true.
Proof.
  induction l as [|x l IH]; intros w s; cbn [app one_by_one]; auto.
  destruct (ustep fx x s); eauto. intros H. apply andb_true_iff in H as (-> & H). cbn. eauto.
Qed.

Lemma hist_scan u chk s s' : scano_step u chk s = UOk s' -> unmark (uhistory s') = unmark (uhistory s).
Proof.
  intros E. unfold scano_step in E. destruct (uth s u) eqn:Eu; unfold ubind, u_goto, u_done in E;
    repeat (match type of E with context [match ?x with _ => _ end] => destruct x eqn:? end; try discriminate);
    injection E as <-; unfold uhistory; cbn [ulg]; rewrite ?hist_mk; reflexivity.
Qed.

Lemma still v s s' u : ustep false v s = UOk s' -> (forall chk, v <> UScan u chk) -> uth s' u <> UIdle -> uth s' u = uth s u.
Proof.
  intros E Hv Hi. destruct v as [t|x chk|x]; cbn [ustep] in E.
  - destruct (uth s t) eqn:Et; try discriminate. destruct (ostep false t (ub s)); try discriminate. now injection E as <-.
  - assert (u <> x) by (intros ->; now apply (Hv chk)).
    unfold scano_step in E. destruct (uth s x); unfold ubind, u_goto, u_done in E;
      repeat (match type of E with context [match ?x with _ => _ end] => destruct x eqn:? end; try discriminate);
      injection E as <-; cbn [uth]; unfold supd; destruct (Nat.eqb_spec u x); congruence.
  - unfold stop_step in E. destruct (uth s x); try discriminate. unfold u_done in E. injection E as <-. cbn [uth] in *.
    unfold supd in *. destruct (Nat.eqb_spec u x); congruence.
Qed.

Section Ends.
Context (prog : tid -> list call) (scans : tid -> list (bound * bound)) (u : tid).
Context (Hp : forall t c, In c (prog t) -> mvalid (call_key c)).
Context (Hs : forall x a b, In (a, b) (scans x) -> mvb a /\ mvb b).
Notation i := (uinit prog scans).

Lemma reach_at sched v e e' : one_by_one false Nobody i (sched ++ [v]) = true ->
  urun false i sched = Some e -> ustep false v e = UOk e' ->
  exists z1 Ls1 hv1 lw1, usim e z1 /\ uinv true z1 Ls1 hv1 lw1 /\ wok (who false Nobody i sched) e lw1 /\
    (forall x, xpc (who false Nobody i sched) z1 lw1 x (uth e x)) /\ whist (who false Nobody i sched) e /\
    allowed (who false Nobody i sched) v = true.
Proof.
  intros Ho Er Ee. destruct (uinit_inv true prog scans Hp Hs) as (Ls & hv & lw & Q).
  apply (one_at sched v Nobody i i Ls hv lw) with (e' := e'); auto.
  - apply usim_init.
  - split; cbn; auto.
  - intros x. exact Logic.I.
  - exists []. reflexivity.
Qed.

Lemma end_seen : forall sched e lo hi a ver kk pos n acc, one_by_one false Nobody i sched = true ->
  urun false i sched = Some e -> who false Nobody i sched <> InHas u ->
  uth e u = ULoop lo hi a ver kk pos n true acc -> n <= pos ->
  exists l1 l2 e1, sched = l1 ++ l2 /\ urun false i l1 = Some e1 /\
    (forall l l' s, l2 = l ++ l' -> urun false i (l1 ++ l) = Some s -> uth s u = uth e u) /\
    forall k, above (last_bound lo acc) k -> below hi k -> calls_map (unmark (uhistory e1)) k = None.
Proof.
  induction sched as [|v sched IH] using rev_ind; intros e lo hi a ver kk pos n acc Ho Er Hw Eu Hn.
  { cbn in Er. injection Er as <-. discriminate Eu. }
  rewrite urun_snoc in Er. destruct (urun false i sched) as [s0|] eqn:E0; [|discriminate].
  rewrite (who_snoc _ _ _ _ _ _ E0) in Hw.
  assert (Hback : uth e u = uth s0 u -> who false Nobody i sched <> InHas u -> urun false i (sched ++ [v]) = Some e ->
    exists l1 l2 e1, sched ++ [v] = l1 ++ l2 /\ urun false i l1 = Some e1 /\
    (forall l l' s, l2 = l ++ l' -> urun false i (l1 ++ l) = Some s -> uth s u = uth e u) /\
    forall k, above (last_bound lo acc) k -> below hi k -> calls_map (unmark (uhistory e1)) k = None).
  { intros Es Hw0 Er'. rewrite Eu in Es.
    destruct (IH s0 lo hi a ver kk pos n acc (one_app _ _ _ _ _ Ho) eq_refl Hw0 (eq_sym Es) Hn) as (l1 & l2 & e1 & El & E1 & Hb & Hnone).
    exists l1, (l2 ++ [v]), e1. split; [now rewrite El, app_assoc|]. split; [auto|]. split; [|auto].
    intros l l' s Hl Hr. destruct l' as [|x l'] using rev_ind.
    - rewrite app_nil_r in Hl. subst l. rewrite app_assoc, <- El, Er' in Hr. now injection Hr as <-.
    - clear IHl'. rewrite app_assoc in Hl. apply app_inj_tail in Hl as (Hl & _). rewrite (Hb l l' s Hl Hr). congruence. }
  assert (Er' : urun false i (sched ++ [v]) = Some e) by (rewrite urun_snoc, E0; exact Er).
  destruct (ustep false v s0) as [s1| |] eqn:Ev; [|injection Er as ->; auto|discriminate].
  injection Er as ->.
  destruct (reach_at sched v s0 e Ho E0 Ev) as (z & Ls & hv & lw & S & Q & W & X & H & A).
  assert (Hd : (exists chk, v = UScan u chk) \/ forall chk, v <> UScan u chk).
  { destruct v as [t|x c|x]; [right; discriminate| |right; discriminate].
    destruct (Nat.eq_dec x u) as [->|Hx]; [left; eauto|right; intros c' [= ->]; congruence]. }
  destruct Hd as [(chk & ->)|Hv].
  - exists (sched ++ [UScan u chk]), [], e. split; [now rewrite app_nil_r|]. split; [auto|]. split.
    { intros l l' s Hl Hr. symmetry in Hl. apply app_eq_nil in Hl as (-> & ->). rewrite app_nil_r in Hr. congruence. }
    pose proof (step_half _ s0 lw _ W A) as B1. pose proof (step_scan _ s0 z Ls hv lw S Q W _ A) as B2.
    pose proof (usim_step true s0 z Ls hv lw _ S Q B1 (fun _ => B2)) as R. rewrite Ev in R.
    destruct R as (z' & Ls' & hv' & lw' & S' & Q' & Hl & Hz).
    assert (Em : moved (who false Nobody i sched) (UScan u chk) z z' = moved (who false Nobody i sched) (UScan u chk) s0 e).
    { cbn [moved]. unfold has_over. now rewrite <- !(us_th _ _ S), <- !(us_th _ _ S'). }
    assert (Hpl : exists l, unmark (uhistory s0) = pairs l).
    { destruct (who false Nobody i sched); cbn in A; try discriminate; exact H. }
    destruct Hpl as (l & Hpl).
    assert (Ef : effs amap_empty (otr (ub z)) = calls_map (pairs l)).
    { apply seq_effs; [apply (i_trace _ _ _ _ (u_base _ _ _ _ _ Q))|].
      rewrite (u_log _ _ _ _ _ Q), events_log, (us_h _ _ S). exact Hpl. }
    rewrite (hist_scan u chk s0 e Ev), Hpl, <- Ef.
    apply (end_now _ s0 z Ls hv lw S Q W X u chk z' lo hi a ver kk pos n acc A Hz); auto.
    + now rewrite (us_th _ _ S').
    + now rewrite Em.
  - apply Hback; auto; [apply (still v); auto; congruence|].
    intros Hh. rewrite Hh in A. destruct v as [t|x c|x]; cbn in A; try discriminate. apply Nat.eqb_eq in A. subst x. now apply (Hv c).
Qed.

Theorem alone_end_seen sched chk e e' lo hi acc : one_by_one false Nobody i (sched ++ [UScan u chk]) = true ->
  urun false i sched = Some e -> ustep false (UScan u chk) e = UOk e' ->
  (forall acc', uth e u <> URet lo hi acc') -> uth e' u = URet lo hi acc ->
  exists l1 l2 e1, sched = l1 ++ l2 /\ urun false i l1 = Some e1 /\
    (forall l l' s, l2 = l ++ l' -> urun false i (l1 ++ l) = Some s -> ubounds (uth s u) = Some (lo, hi) /\ given (uth s u) = acc) /\
    forall k, above (last_bound lo acc) k -> below hi k -> calls_map (unmark (uhistory e1)) k = None.
Proof.
  intros Ho Er Ee Hn Ht.
  assert (EL : exists a ver kk pos n, uth e u = ULoop lo hi a ver kk pos n true acc /\ n <= pos).
  { assert (Hgo : forall p, u_goto e u p = UOk e' -> p = URet lo hi acc).
    { intros p [= <-]. cbn [uth] in Ht. unfold supd in Ht. now rewrite Nat.eqb_refl in Ht. }
    cbn [ustep] in Ee. unfold scano_step in Ee. destruct (uth e u) eqn:Eu; unfold ubind in Ee;
      repeat (match type of Ee with context [match ?x with _ => _ end] => destruct x eqn:? end; try discriminate);
      try (apply Hgo in Ee; try discriminate Ee).
    - injection Ee as <-. cbn [uth] in Ht. unfold supd in Ht. rewrite Nat.eqb_refl in Ht. discriminate.
    - injection Ee as -> -> ->. match goal with H : (_ <? _) = false |- _ => apply Nat.ltb_ge in H end. eauto 10.
    - unfold u_done in Ee. injection Ee as <-. cbn [uth] in Ht. unfold supd in Ht. rewrite Nat.eqb_refl in Ht. discriminate. }
  destruct EL as (a & ver & kk & pos & n & EL & Hle).
  assert (Hd : who false Nobody i sched = InHas u \/ who false Nobody i sched <> InHas u).
  { destruct (who false Nobody i sched) as [| | |x]; try (right; discriminate).
    destruct (Nat.eq_dec x u); [left|right]; congruence. }
  destruct Hd as [Hw|Hw].
  - exists sched, [], e. split; [now rewrite app_nil_r|]. split; [auto|]. split.
    { intros l l' s Hl Hr. symmetry in Hl. apply app_eq_nil in Hl as (-> & ->). rewrite app_nil_r in Hr.
      replace s with e by congruence. rewrite EL. auto. }
    eapply alone_end; eauto.
  - destruct (end_seen sched e lo hi a ver kk pos n acc (one_app _ _ _ _ _ Ho) Er Hw EL Hle) as (l1 & l2 & e1 & El & E1 & Hb & Hnone).
    exists l1, l2, e1. split; [auto|]. split; [auto|]. split; [|auto].
    intros l l' s Hl Hr. rewrite (Hb l l' s Hl Hr), EL. auto.
Qed.
End Ends.

End AloneExact.
