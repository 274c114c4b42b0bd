(** The single-layer trees with their garbage collector, continued: every step keeps the
    invariant of ReclProofs.v.
    This file is proof-side only, except for the definition of calm guards. *)
From Coq Require Import List Arith Bool Lia Sorted.
From Verif Require Import Params Mem Common Spec ConcSpec ScanSpec NodeAbs SLIface BaseIface
  IterModel TreeState Levels ConcModel ConcLin ConcInv ConcHeap ConcSmo ConcThreads
  ConcSteps ConcMain CScanModel CScanLin CScanProofs CScanMain ReclModel ReclProofs.
Import ListNotations.

Section ReclMain.
Context {P : Params} {O : OrdLaws P} {N : SLOps P} {L : SLLaws P N}.
#[local] Existing Instance base_of_sl.
Context (osl late keep : bool).

Notation inv := (ConcInv.inv amap_empty).
Notation rinv := (rinv late keep).

(** The iterator of the pessimistic tree, which keeps no guard, must not move to a leaf that
    has been merged away. *)
Definition hold_calm (s : cfg) (p : spc) : Prop :=
  match p with
  | SHold _ _ a false _ => forall n b, ch s a = Some n -> nd_next n = Some b -> page_in s b
  | _ => True
  end.

Section Scan.
Context (s : rcfg) (G : gh) (st : party -> nat) (R : rinv s G st).
Let b := base (rs s).
Let I : inv b G := ri_inv _ _ _ _ _ R.
Let H := i_heap _ _ _ I.

Lemma safe_prot q a : In q (act s) -> safe b G (st q) a -> prot s q a.
Proof.
  intros Hq (_ & Hd) w Hw. destruct (ri_gb _ _ _ _ _ R a w Hw) as (_ & _ & [(T & Q & _ & Q2)|(_ & _ & Q2)]); auto.
  apply Q2; auto. now rewrite Q in Hd.
Qed.

Lemma leaf_unretired a d : lv G a = 0 -> ch b a = Some d -> nd_removed d = false -> gb s a = None.
Proof.
  intros Hl E Hr. destruct (gb s a) as [w|] eqn:Eg; auto. exfalso.
  destruct (ri_gb _ _ _ _ _ R a w Eg) as (_ & _ & [(T & _ & (d' & E' & R') & _)|(_ & (t & r & Q) & _)]).
  - unfold b in E. congruence.
  - pose proof (i_pc _ _ _ I t) as Hp. unfold b in Hp. rewrite Q in Hp. cbn [pc_ok] in Hp. now apply Hp.
Qed.

Lemma deadroot_inner a d : ch b a = Some d -> deadroot b a -> nd_inner d = true /\ nd_removed d = true /\ nd_next d = None.
Proof.
  intros E (d' & E' & Q1 & Q2). assert (d' = d) by congruence. subst d'. repeat split; auto.
  destruct (h_dead _ _ _ _ _ H a d E Q1) as (_ & Q3 & Q4 & _). apply Q4. congruence.
Qed.

Lemma node_level a d : ch b a = Some d -> nd_inner d = negb (lv G a =? 0).
Proof.
  intros E. destruct (nd_removed d) eqn:Er; [now apply (h_dead _ _ _ _ _ H a d E Er)|].
  pose proof (h_node _ _ _ _ _ H a d E Er) as Hn.
  destruct (L_hdr _ _ (n_rep _ _ _ _ Hn)) as (I1 & _). rewrite I1. apply (n_inner _ _ _ _ Hn).
Qed.
Lemma level_leaf a d : ch b a = Some d -> nd_inner d = false -> lv G a = 0.
Proof. intros E Hi. rewrite (node_level a d E) in Hi. destruct (Nat.eqb_spec (lv G a) 0); auto; discriminate. Qed.
Lemma level_inner a d : ch b a = Some d -> nd_inner d = true -> lv G a <> 0.
Proof. intros E Hi. rewrite (node_level a d E) in Hi. destruct (Nat.eqb_spec (lv G a) 0); auto; discriminate. Qed.

Lemma leftmost_live a d : ch b a = Some d -> nd_inner d = false -> ConcInv.lo G a = NegInf -> nd_removed d = false.
Proof.
  intros E Hi Hlo. destruct (nd_removed d) eqn:Er; auto. exfalso.
  destruct (h_dead _ _ _ _ _ H a d E Er) as (Q1 & Q2 & Q3 & _). destruct (dd G a) as [T|] eqn:Ed; [|congruence].
  pose proof (h_tg _ _ _ _ _ H a T (h_none _ _ _ _ _ H a d E) Ed) as Ht.
  destruct (tg G a) as [x|]; [|rewrite Q3 in Hi; [discriminate|auto]].
  destruct Ht as (_ & _ & Ht & _). rewrite Hlo in Ht. destruct (ConcInv.lo G x); destruct Ht.
Qed.

Lemma enter_page lo hi a n from acc p : enter lo hi a n from acc = Some p ->
  exists ie acc', p = SHold lo hi a ie acc'.
Proof.
  unfold enter. destruct (begin_pos n from); [|discriminate].
  destruct (nd_endpos n hi) as [[ie e]|]; [|discriminate].
  destruct (page_recs n _ _); [|discriminate]. intros [= <-]. eauto.
Qed.

Lemma scan_keeps u chk p m : scan_ok keep s G st u (sth (rs s) u) -> sth (rs s) u <> SIdle ->
  (keep = true \/ hold_calm b (sth (rs s) u)) ->
  scan_step osl u chk b (vn (rs s)) (sth (rs s) u) (sq (rs s) u) = TOk p m ->
  scan_ok keep s G st u p.
Proof.
  intros Hok Hne Hcalm Hs. pose proof (i_root _ _ _ I) as (R0 & HR).
  destruct (sth (rs s) u) as [|lo hi|lo hi a|lo hi a ie acc|lo hi a kk acc|lo hi a ver kk acc
    |lo hi a ver kk pos acc|lo hi a ver kk pos e ie acc|lo hi acc] eqn:E; try congruence;
    cbn [scan_ok scan_step] in *; fold b in Hok.
  - (* SRoot *) injection Hs as <- <-. destruct Hok as (Hq & Vlo). cbn [scan_ok]. fold b.
    split; [auto|]. split; [auto|]. split; [apply HR|].
    destruct (r_cur _ _ _ HR) as [Er|(Hd & _)].
    + right. rewrite Er, (proj2 (r_live _ _ _ HR)), (r_lo _ _ _ HR). split; [exact Logic.I|].
      destruct lo as [[key c]|]; auto. apply ele_neg.
    + left. split; auto. destruct (root_curok late keep s G st R (ByScan u) Hq) as [Q|(_ & Q)]; auto.
      now apply safe_prot.
  - (* SDesc *) destruct Hok as (Hq & Vlo & Ha & Hd). destruct (ch b a) as [n|] eqn:Ea; [|discriminate].
    assert (Hlive : nd_removed n = false \/ nd_inner n = false \/ nd_next n <> None ->
      dle (Some (st (ByScan u))) (dd G a) /\
      match lo with
        | Some (key, _) => ele (ConcInv.lo G a) (Key key)
        | None => ConcInv.lo G a = NegInf
        end).
    { intros Hx. destruct Hd as [(Hd & _)|Hd]; auto. destruct (deadroot_inner a n Ea Hd) as (D1 & D2 & D3).
      destruct Hx as [Hx|[Hx|Hx]]; congruence. }
    assert (Hhold : nd_inner n = false -> nd_removed n = false -> forall ie acc,
      scan_ok keep s G st u (SHold lo hi a ie acc)).
    { intros Hi Hr ie acc. cbn [scan_ok]. fold b. split; [auto|]. split; [now apply (level_leaf a n)|].
      pose proof (leaf_unretired a n (level_leaf a n Ea Hi) Ea Hr) as Hu.
      destruct keep; [split; [auto|]; apply Hlive; auto|auto]. }
    destruct lo as [[key c]|].
    + destruct (osl && negb (nd_inner n)) eqn:Eo.
      * injection Hs as <- <-. apply andb_true_iff in Eo as (_ & Eo). apply negb_true_iff in Eo.
        cbn [scan_ok]. fold b. split; [auto|]. split; [auto|]. apply Hlive; auto.
      * destruct (covers n key) as [[|]|] eqn:Ec; [| |discriminate].
        -- assert (Hr : nd_removed n = false).
           { unfold covers in Ec. destruct (nd_removed n); [discriminate|auto]. }
           destruct (Hlive (or_introl Hr)) as (D1 & D2).
           destruct (nd_inner n) eqn:Ei.
           ++ destruct (walk_down _ _ _ H a n key [] Ea Ha Ec (level_inner a n Ea Ei) (Vlo key c eq_refl) D2)
                as (y & W1 & W2 & _ & W4 & W5 & _). rewrite W1 in Hs. injection Hs as <- <-.
              cbn [scan_ok]. fold b. split; [auto|]. split; [auto|]. split; [auto|]. right. split; auto.
           ++ unfold tlift in Hs. destruct (enter _ _ _ _ _ _) eqn:Ee; [|discriminate]. injection Hs as <- <-.
              destruct (enter_page _ _ _ _ _ _ _ Ee) as (ie & acc' & ->). now apply Hhold.
        -- destruct (nd_next n) as [y|] eqn:En.
           ++ injection Hs as <- <-. destruct Hlive as (D1 & D2); [right; right; congruence|].
              destruct (walk_next _ _ _ H a n key y Ea Ha Ec En) as ((W1 & _ & W2 & _) & W3).
              cbn [scan_ok]. fold b. split; [auto|]. split; [auto|]. split; [auto|]. right. split; auto.
           ++ injection Hs as <- <-. cbn [scan_ok]. auto.
    + destruct (nd_inner n) eqn:Ei.
      * destruct (nd_removed n) eqn:Er; [injection Hs as <- <-; cbn [scan_ok]; auto|].
        destruct (Hlive (or_introl eq_refl)) as (D1 & D2).
        destruct (nd_child n 0) as [y|] eqn:Ec; [|discriminate]. injection Hs as <- <-.
        pose proof (level_inner a n Ea Ei) as Hlv.
        pose proof (child0_kid b G I a n y Ea Er Hlv Ec) as Hin.
        destruct (n_kids _ _ _ _ (h_node _ _ _ _ _ H a n Ea Er) Hlv _ y Hin) as (K1 & _ & K3 & K4 & _).
        cbn [scan_ok]. fold b. split; [auto|]. split; [auto|]. split; [auto|]. right. split; [|congruence].
        eapply dle_trans; eauto.
      * destruct (Hlive (or_intror (or_introl eq_refl))) as (D1 & D2).
        destruct osl.
        -- injection Hs as <- <-. cbn [scan_ok]. fold b. split; [auto|]. split; auto.
        -- unfold tlift in Hs. destruct (enter _ _ _ _ _ _) eqn:Ee; [|discriminate]. injection Hs as <- <-.
           destruct (enter_page _ _ _ _ _ _ _ Ee) as (ie & acc' & ->). apply Hhold; auto.
           eapply leftmost_live; eauto.
  - (* SHold *) destruct ie; [injection Hs as <- <-; exact Logic.I|].
    destruct Hok as (Ha & Hl & Hk).
    destruct (ch b a) as [n|] eqn:Ea; [|discriminate]. destruct (nd_next n) as [y|] eqn:En; [|discriminate].
    destruct (ch b y) as [k|] eqn:Ey; [|discriminate].
    unfold tlift in Hs. destruct (enter _ _ _ _ _ _) eqn:Ee; [|discriminate]. injection Hs as <- <-.
    destruct (enter_page _ _ _ _ _ _ _ Ee) as (ie & acc' & ->).
    pose proof (next_right b G I a n y Ea En) as Hr. pose proof Hr as (W1 & W2 & W3 & _).
    cbn [scan_ok]. fold b. split; [auto|]. split; [congruence|].
    pose proof (leaf_unretired y k ltac:(congruence) Ey) as Hu.
    destruct keep; [split; [apply Hk|apply W3, Hk]|].
    destruct Hcalm as [Hc|Hc]; [discriminate|]. cbn [hold_calm] in Hc. apply Hu. eapply Hc; eauto.
  - (* OReset *) destruct (ch b a) as [n|] eqn:Ea; [|discriminate].
    destruct kk as [[key c]|]; [|injection Hs as <- <-; auto].
    destruct (covers n key) as [[|]|] eqn:Ec; [injection Hs as <- <-; auto| |discriminate].
    destruct (nd_next n) as [y|] eqn:En; [|discriminate]. injection Hs as <- <-. cbn [scan_ok]. fold b.
    split; [apply Hok|]. eapply right_safe; [apply Hok|]. eapply next_right; eauto.
  - (* OPos *) destruct (ch b a) as [n|] eqn:Ea; [|discriminate].
    destruct (begin_pos n kk); [|discriminate]. injection Hs as <- <-. auto.
  - (* OEnd *) destruct (ch b a) as [n|] eqn:Ea; [|discriminate].
    destruct (nd_endpos n hi) as [[ie e]|]; [|discriminate]. injection Hs as <- <-. auto.
  - (* OLoop *) destruct (pos <? e).
    + destruct (ch b a) as [n|] eqn:Ea; [|discriminate]. destruct chk; [|injection Hs as <- <-; auto].
      destruct (nd_key n pos); [|discriminate]. destruct (nd_recdel n pos) as [[|]|]; [injection Hs as <- <-; auto| |discriminate].
      destruct (nd_record n pos); [|discriminate]. injection Hs as <- <-; auto.
    + destruct ie; [injection Hs as <- <-; exact Logic.I|].
      destruct (ch b a) as [n|] eqn:Ea; [|discriminate]. destruct chk; [|injection Hs as <- <-; auto].
      destruct (nd_next n) as [y|] eqn:En; [|discriminate]. injection Hs as <- <-. cbn [scan_ok]. fold b.
      split; [apply Hok|]. eapply right_safe; [apply Hok|]. eapply next_right; eauto.
  - injection Hs as <- <-. exact Logic.I.
Qed.

(** The pages a scan uses. *)
Lemma scan_unreleased u a : (keep = true \/ hold_calm b (sth (rs s) u)) ->
  In a (scan_touches b (sth (rs s) u)) -> ~ released s a.
Proof.
  intros Hcalm Ha. pose proof (ri_scan _ _ _ _ _ R u) as Hok.
  assert (Hsafe : forall z, In (ByScan u) (act s) /\ safe b G (st (ByScan u)) z -> ~ released s z).
  { intros z (Q1 & Q2). eapply safe_unreleased; eauto. }
  destruct (sth (rs s) u) as [|lo hi|lo hi x|lo hi x ie acc|lo hi x kk acc|lo hi x ver kk acc
    |lo hi x ver kk pos acc|lo hi x ver kk pos e ie acc|lo hi acc] eqn:E;
    cbn [scan_ok scan_touches] in *; fold b in Hok; try (destruct Ha; fail).
  - destruct Ha as [<-|[]]. destruct Hok as (Hq & _ & Hx & [(_ & Q)|(Q & _)]).
    + intros Hr. exact (Q [] Hr).
    + apply Hsafe. split; [auto|]. split; auto.
  - destruct Hok as (Hx & Hl & Hk).
    assert (Hxs : ~ released s x).
    { destruct keep; [apply Hsafe; split; [apply Hk|]; split; [auto|apply Hk]|]. unfold released. congruence. }
    destruct ie; [destruct Ha as [<-|[]]; auto|]. destruct Ha as [<-|Ha]; auto.
    unfold next_page in Ha. destruct (ch b x) as [n|] eqn:Ex; [|destruct Ha].
    destruct (nd_next n) as [y|] eqn:En; [|destruct Ha]. destruct Ha as [<-|[]].
    pose proof (next_right b G I x n y Ex En) as (W1 & W2 & W3 & _).
    destruct (h_some _ _ _ _ _ H y W1) as (d & Ed).
    pose proof (leaf_unretired y d ltac:(congruence) Ed) as Hu.
    destruct keep.
    + apply Hsafe. split; [apply Hk|]. split; [auto|apply W3, Hk].
    + destruct Hcalm as [Hc|Hc]; [discriminate|].
      unfold released. rewrite Hu; [discriminate|]. eapply Hc; eauto.
  - destruct Ha as [<-|[]]. auto.
  - destruct Ha as [<-|[]]. auto.
  - destruct Ha as [<-|[]]. auto.
  - destruct (_ || _); [destruct Ha as [<-|[]]; auto|destruct Ha].
Qed.

End Scan.

(** ** Guards come and go *)

(** [x] uses its guard for nothing. *)
Definition quiet (s : rcfg) (x : party) : Prop :=
  match x with
  | ByCall t => th (base (rs s)) t = PIdle
  | ByScan u => match sth (rs s) u with
                | SIdle | SRet _ _ _ => True
                | SHold _ _ _ _ _ => keep = false
                | _ => False
                end
  end.

Definition no_shrink (s : cfg) : Prop := forall t p, ~ shrinking (th s t) p.

Definition setst (st : party -> nat) (x : party) (n : nat) : party -> nat :=
  fun q => if party_eqb q x then n else st q.
Lemma setst_same st x n : setst st x n x = n.
Proof. unfold setst. replace (party_eqb x x) with true; auto. symmetry. now apply party_eqb_ok. Qed.
Lemma setst_diff st x n q : q <> x -> setst st x n q = st q.
Proof.
  intros Hq. unfold setst. destruct (party_eqb q x) eqn:E; auto. apply party_eqb_ok in E. congruence.
Qed.

Lemma party_dec (x y : party) : x = y \/ x <> y.
Proof.
  destruct (party_eqb x y) eqn:E; [left; now apply party_eqb_ok|right]. intros ->.
  assert (party_eqb y y = true) by now apply party_eqb_ok. congruence.
Qed.

Lemma begin_rinv s G st x : rinv s G st -> quiet s x -> (late = true \/ no_shrink (base (rs s))) ->
  rinv (RCfg (rs s) (gb s) (x :: act s) (hold s)) G (setst st x (length (tr (base (rs s))))).
Proof.
  intros R Hq Hl. pose proof (ri_inv _ _ _ _ _ R) as I. pose proof (i_heap _ _ _ I) as H.
  constructor; cbn [rs gb act hold]; try apply R.
  - intros q Hin. destruct (party_dec q x) as [->|Hne]; [rewrite setst_same; auto|].
    rewrite setst_diff by auto. apply (ri_st _ _ _ _ _ R). destruct Hin; [congruence|auto].
  - intros t Ht. destruct (party_dec (ByCall t) x) as [<-|Hne]; [cbn in Hq; congruence|].
    rewrite setst_diff by auto. destruct (ri_call _ _ _ _ _ R t Ht) as (Q1 & Q2). split; [now right|auto].
  - intros u. pose proof (ri_scan _ _ _ _ _ R u) as Hu.
    destruct (party_dec (ByScan u) x) as [<-|Hne].
    + cbn in Hq. destruct (sth (rs s) u); try (destruct Hq; fail); auto. cbn [scan_ok rs gb act] in *.
      rewrite Hq in *. auto.
    + unfold scan_ok, prot in *. cbn [rs gb act] in *. rewrite setst_diff by auto.
      destruct (sth (rs s) u); cbn; auto; try tauto. destruct keep; tauto.
  - intros p w Hp. destruct (ri_gb _ _ _ _ _ R p w Hp) as (Q1 & Q2 & Q3).
    split; [auto|]. split; [intros q Hin; right; auto|].
    destruct Q3 as [(T & Q3 & Q4 & Q5)|(Q3 & (t & r & Q4) & _)].
    + left. exists T. split; [auto|]. split; [auto|]. intros q Hin.
      destruct (party_dec q x) as [->|Hne].
      * rewrite setst_same. intros Hle. destruct (h_btd _ _ _ _ _ H p T Q1 Q3). lia.
      * rewrite setst_diff by auto. apply Q5. destruct Hin; [congruence|auto].
    + exfalso. destruct Hl as [Hl|Hl]; [congruence|]. apply (Hl t p). left. eauto.
  - pose proof (ri_root _ _ _ _ _ R) as Hr. destruct late; auto. intros q Hin.
    destruct (party_dec q x) as [->|Hne].
    + destruct Hl as [Hl|Hl]; [discriminate|]. destruct (i_root _ _ _ I) as (R0 & HR).
      destruct (r_cur _ _ _ HR) as [Er|(_ & _ & t & Q)]; [|exfalso; eapply Hl; eauto].
      rewrite Er, (proj2 (r_live _ _ _ HR)). exact Logic.I.
    + rewrite setst_diff by auto. apply Hr. destruct Hin; [congruence|auto].
Qed.

Lemma end_rinv s G st x : rinv s G st -> quiet s x ->
  rinv (RCfg (rs s) (unguard x (gb s)) (leave x (act s)) (hold s)) G st.
Proof.
  intros R Hq.
  assert (Hg : forall p, gb s p = None <-> unguard x (gb s) p = None).
  { intros p. unfold unguard. destruct (gb s p); split; congruence. }
  assert (Hw : forall p w, unguard x (gb s) p = Some w -> exists w', gb s p = Some w' /\ w = leave x w').
  { intros p w. unfold unguard. destruct (gb s p) as [w'|]; [|discriminate]. intros [= <-]. eauto. }
  assert (Hp : forall q a, q <> x -> prot s q a ->
    prot (RCfg (rs s) (unguard x (gb s)) (leave x (act s)) (hold s)) q a).
  { intros q a Hne Hp w Ew. cbn [gb] in Ew. destruct (Hw a w Ew) as (w' & Q1 & ->). apply in_leave. auto. }
  assert (Ha : forall q, q <> x -> In q (act s) -> In q (leave x (act s))).
  { intros q Hne Hin. apply in_leave. auto. }
  constructor; cbn [rs gb act hold]; try apply R.
  - intros q Hin. apply in_leave in Hin as [Hin _]. now apply (ri_st _ _ _ _ _ R).
  - intros t Ht. destruct (party_dec (ByCall t) x) as [<-|Hne]; [cbn in Hq; congruence|].
    destruct (ri_call _ _ _ _ _ R t Ht) as (Q1 & Q2 & Q3). split; [auto|].
    split; [auto|]. intros a Hc. destruct (Q3 a Hc) as [Q|(Q & Q')]; [now left|right; auto].
  - intros u. pose proof (ri_scan _ _ _ _ _ R u) as Hu.
    destruct (party_dec (ByScan u) x) as [<-|Hne].
    + cbn in Hq. destruct (sth (rs s) u); try (destruct Hq; fail); auto. cbn [scan_ok rs gb act] in *.
      rewrite Hq in *. destruct Hu as (U1 & U2 & U3). split; [auto|]. split; [auto|]. now apply Hg.
    + unfold scan_ok in *. cbn [rs gb act] in *.
      destruct (sth (rs s) u); auto; try (destruct Hu; split; auto; fail).
      * destruct Hu as (U1 & U2 & U3 & U4). repeat (split; [auto|]). destruct U4 as [(U4 & U5)|U4]; [left|right]; auto.
      * destruct Hu as (U1 & U2 & U3). repeat (split; [auto|]). destruct keep; [destruct U3; auto|now apply Hg].
  - intros p w Ew. destruct (Hw p w Ew) as (w' & Q & ->). destruct (ri_gb _ _ _ _ _ R p w' Q) as (Q1 & Q2 & Q3).
    split; [auto|]. split; [intros q Hin; apply in_leave in Hin as [? ?]; auto|].
    destruct Q3 as [(T & Q3 & Q4 & Q5)|(Q3 & Q4 & Q5)].
    + left. exists T. split; [auto|]. split; [auto|]. intros q Hin Hle. apply in_leave in Hin as [? ?].
      apply in_leave. auto.
    + right. split; [auto|]. split; [auto|]. intros q Hin. apply in_leave in Hin as [? ?].
      apply in_leave. auto.
  - pose proof (ri_root _ _ _ _ _ R) as Hr. destruct late; [now apply Hg|]. intros q Hin.
    apply in_leave in Hin as [? ?]; auto.
  - intros t. destruct (ri_hold _ _ _ _ _ R t) as (Q1 & Q2). split; [auto|]. intros p Hin.
    destruct (Q2 p Hin) as (U1 & U2 & U3 & U4). split; [auto|]. split; [auto|]. split; [now apply Hg|auto].
  - intros t r p E. pose proof (ri_shr _ _ _ _ _ R t r p E) as Hs. destruct late; auto. rewrite <- Hg. auto.
  - intros p Hr. destruct (ri_leak _ _ _ _ _ R p Hr) as [Q|Q]; auto. left. rewrite <- Hg. auto.
Qed.

(** A scanner moves on. *)
Lemma move_rinv s G st u p q lg' : rinv s G st -> scan_ok keep s G st u p ->
  (forall v lo hi, In (lo, hi) (q v) -> In (lo, hi) (sq (rs s) v)) ->
  rinv (RCfg (SCfg (base (rs s)) (vn (rs s)) (supd (sth (rs s)) u p) q lg') (gb s) (act s) (hold s)) G st.
Proof.
  intros R Hok Hq. constructor; cbn [rs base vn sth sq gb act hold]; try apply R.
  - intros v. unfold supd. destruct (Nat.eqb_spec v u) as [->|Hne]; [exact Hok|]. exact (ri_scan _ _ _ _ _ R v).
  - intros v lo hi Hin. apply (ri_q _ _ _ _ _ R v). auto.
Qed.

(** ** A call moves on *)

Section Call.
Context (s : rcfg) (G : gh) (st : party -> nat) (R : rinv s G st).
Let b := base (rs s).
Let I : inv b G := ri_inv _ _ _ _ _ R.
Let H := i_heap _ _ _ I.
Context (t : tid) (l : label) (c : cfg) (G' : gh).
Hypothesis Hstep : cstep osl repaired t b = SOk l c.
Let b' := emit c l.
Hypothesis I' : inv b' G'.
Hypothesis X : gext b b' G G'.
Hypothesis Hact : In (ByCall t) (act s).

Let H' := i_heap _ _ _ I'.
Let Htr : tr b' = tr b ++ [l].
Proof. unfold b', emit. cbn [tr]. now rewrite (cstep_tr _ _ _ _ _ _ Hstep). Qed.
Let Hoth : forall u, u <> t -> th b' u = th b u.
Proof. intros u Hu. unfold b', emit. cbn [th]. eapply cstep_th; eauto. Qed.

Lemma shr_same u1 u2 p1 p2 : shrinking (th b u1) p1 -> shrinking (th b u2) p2 -> u1 = u2.
Proof.
  intros S1 S2. destruct (i_root _ _ _ I) as (R0 & HR).
  pose proof (r_shr _ _ _ HR _ _ S1). pose proof (r_shr _ _ _ HR _ _ S2). subst p1 p2.
  assert (Ho : forall u, shrinking (th b u) R0 -> owns b u R0).
  { intros u Hs. pose proof (i_pc _ _ _ I u) as Hp.
    destruct Hs as [(r & E)|(r & E)]; rewrite E in Hp; apply Hp. }
  pose proof (Ho _ S1). pose proof (Ho _ S2). unfold owns in *. congruence.
Qed.

Lemma removed_dead p : removed_at b p -> exists T, p < cfr b /\ dd G p = Some T.
Proof.
  intros (d & E & Hr). destruct (h_dead _ _ _ _ _ H p d E Hr) as (Q & _).
  destruct (dd G p) as [T|]; [|congruence]. exists T. split; auto. apply (h_none _ _ _ _ _ H p d E).
Qed.

Lemma removed_stays p : removed_at b p -> removed_at b' p.
Proof.
  intros Hr. destruct (removed_dead p Hr) as (T & Hp & Hd). destruct Hr as (d & E & Hr).
  destruct (h_some _ _ _ _ _ H' p (ext_lt _ _ _ _ X p Hp)) as (d' & E').
  exists d'. split; auto. destruct (nd_removed d') eqn:Hr'; auto. exfalso.
  pose proof (gle_dead _ _ _ _ _ _ (x_gle _ _ _ _ X) Hp Hd) as Hd'.
  destruct (i_stale _ _ _ I' p d' T E' Hr' Hd') as (u & r & m & up & _ & Eu).
  destruct (Nat.eq_dec u t) as [->|Hne].
  - destruct (cstep_mrg2 osl repaired _ _ _ _ _ _ _ _ Hstep Eu) as (y & Ey).
    pose proof (i_pc _ _ _ I t) as Hpc. rewrite Ey in Hpc. destruct Hpc as ((_ & _ & _ & (_ & Q) & _) & _). congruence.
  - rewrite Hoth in Eu by auto. pose proof (i_pc _ _ _ I u) as Hpc. rewrite Eu in Hpc.
    destruct Hpc as (_ & _ & _ & _ & (d2 & E2 & Q) & _). congruence.
Qed.

(** The pages a step removes. *)
Lemma removed_new p : removed_at b' p -> removed_at b p \/
  (exists r m up, th b t = PMrg2 r p m up) \/ (exists r, th b t = PShrL r p).
Proof.
  intros (d' & E' & Hr'). destruct (h_dead _ _ _ _ _ H' p d' E' Hr') as (Hd' & _).
  pose proof (h_none _ _ _ _ _ H' p d' E') as Hp'.
  destruct (x_die _ _ _ _ X p Hp' Hd') as [(Hp & Hd)|(u & Hk)].
  - destruct (h_some _ _ _ _ _ H p Hp) as (d & E). destruct (nd_removed d) eqn:Hr; [left; exists d; auto|].
    destruct (dd G p) as [T|] eqn:Ed; [|congruence].
    destruct (i_stale _ _ _ I p d T E Hr Ed) as (u & r & m & up & _ & Eu).
    destruct (Nat.eq_dec u t) as [->|Hne]; [right; left; eauto|]. exfalso.
    rewrite <- Hoth in Eu by auto. pose proof (i_pc _ _ _ I' u) as Hpc. rewrite Eu in Hpc.
    destruct Hpc as (_ & _ & _ & _ & (d2 & E2 & Q) & _). congruence.
  - destruct (Nat.eq_dec u t) as [->|Hne].
    + destruct (th b t) eqn:Et; cbn [kills] in Hk; try (destruct Hk; fail); subst p; [|right; right; eauto].
      exfalso. unfold cstep in Hstep. rewrite Et in Hstep. unfold sbind in Hstep.
      repeat (match type of Hstep with context [match ?x with _ => _ end] => destruct x eqn:? end; try discriminate).
      injection Hstep as <- <-. pose proof (i_pc _ _ _ I' t) as Hpc. unfold b', emit in Hpc.
      cbn [th goto own setp] in Hpc. rewrite supd_same in Hpc. cbn [pc_ok] in Hpc.
      destruct Hpc as (_ & _ & _ & _ & (d2 & E2 & Q) & _). unfold b', emit in E'.
      cbn [ch goto own setp] in E', E2. congruence.
    + exfalso. pose proof (i_pc _ _ _ I' u) as Hpc. rewrite Hoth in Hpc by auto.
      destruct (th b u); cbn [kills] in Hk; try (destruct Hk; fail); subst p; cbn [pc_ok] in Hpc.
      * destruct Hpc as ((_ & _ & _ & (_ & Q) & _) & _). congruence.
      * destruct Hpc as (_ & (_ & Q) & _). congruence.
Qed.

Definition rl := retired_now late (th b t) (th b' t) (hold s t).

Lemma mrg2_not_removed r x m up : th b t = PMrg2 r x m up -> x < cfr b /\ ~ removed_at b x /\ dd G x <> None.
Proof.
  intros E. pose proof (i_pc _ _ _ I t) as Hpc. rewrite E in Hpc.
  destruct Hpc as (_ & Hx & Hd & _ & (d2 & E2 & Q) & _). split; [auto|]. split; [|auto].
  intros (d & Ed & Hr). congruence.
Qed.

Lemma ret_cases p : In p rl ->
  (exists r m up, th b t = PMrg2 r p m up) \/
  (exists r q, th b t = PShrSt r q /\ In p (hold s t)) \/
  (late = false /\ (exists r, th b' t = PShrL r p) /\
    ((exists r, th b t = PShr r p) \/ exists r q, th b t = PShrL r q)).
Proof.
  unfold rl. destruct (th b t) eqn:E; cbn [retired_now root_dropped]; try (destruct late; intros []; fail).
  - intros [<-|[]]. left. eauto.
  - destruct late eqn:El; [intros []|]. destruct (th b' t) eqn:E'; intros Hin; try (destruct Hin; fail).
    destruct Hin as [<-|[]]. right. right. split; [auto|]. split; [eauto|]. left.
    destruct (cstep_shrl osl repaired _ _ _ _ _ _ Hstep E') as [Q|(q & Q & _)]; [|congruence].
    eexists. rewrite <- E. exact Q.
  - destruct late eqn:El; [intros []|]. destruct (th b' t) eqn:E'; intros Hin; try (destruct Hin; fail).
    destruct Hin as [<-|[]]. right. right. split; [auto|]. split; eauto.
  - intros Hin. right. left. eauto.
Qed.

(** Nothing is retired twice. *)
Lemma ret_fresh p : In p rl -> gb s p = None.
Proof.
  intros Hin. destruct (gb s p) as [w|] eqn:Eg; auto. exfalso.
  destruct (ret_cases p Hin) as [(r & m & up & E)|[(r & q & E & Hh)|(El & (r & E') & Hcs)]].
  - destruct (mrg2_not_removed _ _ _ _ E) as (_ & Hr & Hd).
    destruct (ri_gb _ _ _ _ _ R p w Eg) as (_ & _ & [(T & _ & Q & _)|(_ & (u & r' & Q) & _)]); auto.
    pose proof (i_pc _ _ _ I u) as Hpc. fold b in Q. rewrite Q in Hpc. destruct Hpc as (_ & (_ & Q1) & _). congruence.
  - destruct (ri_hold _ _ _ _ _ R t) as (_ & Hq). destruct (Hq p Hh) as (_ & _ & Q & _). congruence.
  - pose proof (i_pc _ _ _ I' t) as Hpc'. rewrite E' in Hpc'. destruct Hpc' as (Ho' & (Hp' & Hl') & _).
    destruct (ri_gb _ _ _ _ _ R p w Eg) as (Hp & _ & [(T & Hd & _)|(_ & (u & r' & Q) & _)]).
    + rewrite (gle_dead _ _ _ _ _ _ (x_gle _ _ _ _ X) Hp Hd) in Hl'. discriminate.
    + fold b in Q. destruct (cstep_shrl osl repaired _ _ _ _ _ _ Hstep E') as [E|(p0 & E & Hf)].
      * assert (u <> t) by (intros ->; congruence).
        pose proof (i_pc _ _ _ I u) as H1. rewrite Q in H1. destruct H1 as (H1 & _).
        pose proof (i_pc _ _ _ I t) as H2. rewrite E in H2. destruct H2 as (H2 & _). unfold owns in *. congruence.
      * pose proof (i_pc _ _ _ I u) as H1. rewrite Q in H1. destruct H1 as (H1 & _). unfold owns in *. congruence.
Qed.

Lemma ret_nodup : NoDup rl.
Proof.
  unfold rl. destruct (th b t); cbn [retired_now root_dropped]; try (destruct late; constructor; fail).
  - constructor; [intros []|constructor].
  - destruct late; [constructor|]. destruct (th b' t); repeat constructor; intros [].
  - destruct late; [constructor|]. destruct (th b' t); repeat constructor; intros [].
  - apply (ri_hold _ _ _ _ _ R t).
Qed.

(** What a retired page is. *)
Lemma ret_what p : In p rl -> p < cfr b' /\
  ((exists T, dd G' p = Some T /\ removed_at b' p) \/ (late = false /\ exists r, th b' t = PShrL r p)).
Proof.
  intros Hin. destruct (ret_cases p Hin) as [(r & m & up & E)|[(r & q & E & Hh)|(El & (r & E') & Hcs)]].
  - destruct (mrg2_not_removed _ _ _ _ E) as (Hp & _ & Hd). split; [eapply ext_lt; eauto|]. left.
    destruct (dd G p) as [T|] eqn:Ed; [|congruence]. exists T.
    split; [exact (gle_dead _ _ _ _ _ _ (x_gle _ _ _ _ X) Hp Ed)|].
    exists m. split; [exact (cstep_merged osl repaired _ _ _ _ _ _ _ _ Hstep E)|].
    pose proof (i_pc _ _ _ I t) as Hpc. rewrite E in Hpc. apply Hpc.
  - destruct (ri_hold _ _ _ _ _ R t) as (_ & Hq). destruct (Hq p Hh) as (_ & Hp & _ & _ & [(r' & Q)|(Hr & _)]).
    + unfold b in E. congruence.
    + split; [eapply ext_lt; eauto|]. left. destruct (removed_dead p Hr) as (T & _ & Hd). exists T.
      split; [exact (gle_dead _ _ _ _ _ _ (x_gle _ _ _ _ X) Hp Hd)|]. now apply removed_stays.
  - pose proof (i_pc _ _ _ I' t) as Hpc'. rewrite E' in Hpc'. destruct Hpc' as (_ & (Hp' & _) & _).
    split; [auto|]. right. split; eauto.
Qed.

(** The page dropped by TryShrinkTree in this step. *)
Lemma dropped_dies r p : th b t = PShrL r p -> removed_at b' p /\ p < cfr b /\ dd G' p = Some (length (tr b)).
Proof.
  intros E. destruct (cstep_dropped osl repaired _ _ _ _ _ _ Hstep E) as (_ & d & Ed & Ed').
  pose proof (i_pc _ _ _ I t) as Hpc. rewrite E in Hpc. destruct Hpc as (_ & (Hp & Hd) & _).
  assert (Hr : nd_removed d = false).
  { destruct (nd_removed d) eqn:Q; auto. destruct (h_dead _ _ _ _ _ H p d Ed Q) as (Q1 & _). congruence. }
  destruct (L_remove_root _ _ (n_rep _ _ _ _ (h_node _ _ _ _ _ H p d Ed Hr))) as (Q & _).
  split; [exists (nd_remove_root d); auto|]. split; [auto|].
  destruct (h_dead _ _ _ _ _ H' p _ Ed' Q) as (Hd' & _).
  destruct (g_dd _ _ _ _ (x_gle _ _ _ _ X) p Hp) as [Q1|[_ Q1]]; congruence.
Qed.

Hypothesis Hlat : forall u a, latched (sth (rs s) u) a -> ch c a = ch b a.

Definition next_r (vs : addr -> nat) (lg' : list (marked label)) : rcfg :=
  RCfg (SCfg b' vs (sth (rs s)) (sq (rs s)) lg') (retire rl (act s) (gb s)) (act s)
       (supd (hold s) t (held_after late (th b t) (th b' t) (hold s t))).

Lemma call_rinv vs lg' : rinv (next_r vs lg') G' st.
Proof.
  assert (Hprot : forall q a, In q (act s) -> prot s q a -> prot (next_r vs lg') q a).
  { intros q a Hq Hp w Hw. cbn [next_r gb] in Hw. apply retire_cases in Hw as [(_ & ->)|(_ & Hw)]; auto. }
  assert (Hlen : length (tr b) <= length (tr b')) by (rewrite Htr, app_length; cbn; lia).
  pose proof (ri_st _ _ _ _ _ R) as Hst. fold b in Hst.
  constructor; cbn [next_r rs base sth sq gb act hold].
  - exact I'.
  - intros q Hq. specialize (Hst q Hq). lia.
  - intros u Hu. destruct (Nat.eq_dec u t) as [->|Hne].
    + split; [auto|]. destruct (match th b t with PIdle => true | _ => false end) eqn:Ei.
      * assert (E : th b t = PIdle) by (destruct (th b t); auto; discriminate).
        destruct (cstep_idle osl repaired _ _ _ _ Hstep E) as (c0 & Q).
        change (th c t) with (th b' t) in Q. rewrite Q. split; cbn; [tauto|discriminate].
      * assert (E : th b t <> PIdle) by (intros Q; now rewrite Q in Ei).
        destruct (ri_call _ _ _ _ _ R t E) as (_ & Hj). fold b in Hj.
        eapply jc_later; [exact X| | |].
        -- apply Hst; auto.
        -- intros z Hz. apply Hprot; eauto.
        -- change (th b' t) with (th c t). refine (jc_step osl b G t _ _ I _ l c E Hj Hstep).
           apply (root_curok late keep s G st R). auto.
    + rewrite Hoth in Hu by auto. destruct (ri_call _ _ _ _ _ R u Hu) as (Hq & Hj). split; [auto|].
      rewrite Hoth by auto. refine (jc_later _ _ _ _ X _ _ _ _ (Hst _ Hq) _ Hj). auto.
  - intros u. pose proof (ri_scan _ _ _ _ _ R u) as Hu. pose proof (x_gle _ _ _ _ X) as Hg.
    assert (Hs' : forall i a, i <= length (tr b) -> safe b G i a -> safe b' G' i a) by (intros; eapply safe_later; eauto).
    unfold scan_ok in *. cbn [next_r rs base gb act] in *. fold b in Hu.
    destruct (sth (rs s) u) as [|lo hi|lo hi a|lo hi a ie acc|lo hi a kk acc|lo hi a ver kk acc
      |lo hi a ver kk pos acc|lo hi a ver kk pos e ie acc|lo hi acc] eqn:Es; auto;
      try (destruct Hu as (U1 & U2); split; [auto|]; apply Hs'; auto; fail).
    + destruct Hu as (U1 & U2 & U3 & U4). split; [auto|]. split; [auto|]. split; [eapply ext_lt; eauto|].
      rewrite (g_lo _ _ _ _ Hg a U3). destruct U4 as [(U4 & U5)|(U4 & U5)]; [left|right].
      * split; [now apply (x_dead _ _ _ _ X)|]. intros w Hw. exact (Hprot _ _ U1 U5 w Hw).
      * split; [|auto]. eapply gle_dle; eauto.
    + destruct Hu as (U1 & U2 & U3). split; [eapply ext_lt; eauto|]. rewrite (g_lv _ _ _ _ Hg a U1). split; [auto|].
      assert (Hn : gb s a = None -> retire rl (act s) (gb s) a = None).
      { intros Hn. rewrite retire_out; auto. intros Hin.
        destruct (ret_cases a Hin) as [(r & m & up & E)|[(r & q & E & Hh)|(El & (r & E') & Hcs)]].
        - destruct (mrg2_not_removed _ _ _ _ E) as (_ & Hr & _). apply Hr. exists m.
          pose proof (cstep_merged osl repaired _ _ _ _ _ _ _ _ Hstep E) as Hm.
          split; [rewrite <- Hm; symmetry; apply (Hlat u); rewrite Es; reflexivity|].
          pose proof (i_pc _ _ _ I t) as Hpc. rewrite E in Hpc. apply Hpc.
        - destruct (ri_hold _ _ _ _ _ R t) as (_ & Hq). destruct (Hq a Hh) as (_ & _ & _ & Q & _). auto.
        - pose proof (i_pc _ _ _ I' t) as Hpc'. rewrite E' in Hpc'. destruct Hpc' as (_ & _ & Q & _).
          rewrite (g_lv _ _ _ _ Hg a U1) in Q. auto. }
      destruct keep; auto. destruct U3 as (U3 & U4). split; [auto|]. eapply gle_dle; eauto.
  - apply R.
  - intros p w Hw. apply retire_cases in Hw as [(Hin & ->)|(Hin & Hw)].
    + destruct (ret_what p Hin) as (Hp & Hx). split; [auto|]. split; [auto|].
      destruct Hx as [(T & Q1 & Q2)|(Q1 & Q2)]; [left; exists T; auto|right]. split; [auto|]. split; [exists t; auto|auto].
    + destruct (ri_gb _ _ _ _ _ R p w Hw) as (Q1 & Q2 & Q3). fold b in Q1, Q3.
      split; [eapply ext_lt; eauto|]. split; [auto|].
      destruct Q3 as [(T & Q3 & Q4 & Q5)|(Q3 & (u & r & Q4) & Q5)].
      * left. exists T. split; [exact (gle_dead _ _ _ _ _ _ (x_gle _ _ _ _ X) Q1 Q3)|].
        split; [now apply removed_stays|auto].
      * destruct (Nat.eq_dec u t) as [->|Hne].
        -- left. destruct (dropped_dies r p Q4) as (D1 & _ & D2). exists (length (tr b)). auto.
        -- right. split; [auto|]. split; [|auto]. exists u, r. now rewrite Hoth.
  - pose proof (ri_root _ _ _ _ _ R) as Hr. fold b in Hr. destruct (i_root _ _ _ I) as (R0 & HR).
    pose proof (ri_hold _ _ _ _ _ R t) as (_ & Hh). fold b in Hh.
    pose proof ret_cases as Hrc. pose proof removed_dead as Hrd. pose proof (fun p => live_late late keep s G st R p) as Hll. fold b in Hll.
    assert (Hnew : croot b' = croot b \/ (lives b G (croot b') /\ (exists r p, th b t = PShrSt r p)) \/
      (croot b' = cfr b /\ cfr b < cfr b' /\ exists r stk x y k, th b t = PTrySt r stk x y k)).
    { destruct (cstep_root osl repaired _ _ _ _ Hstep) as [E|[(r & stk & x & y & k & E & E1 & E2 & _)|(r & p & E & E1)]].
      - left. exact E.
      - right. right. split; [exact E1|]. split; [unfold b', emit; cbn [cfr]; lia|eauto 10].
      - right. left. unfold b', emit. cbn [croot]. rewrite E1. pose proof (i_pc _ _ _ I t) as Hpc.
        rewrite E in Hpc. split; [apply Hpc|eauto]. }
    assert (Hnocfr : gb s (cfr b) = None).
    { destruct (gb s (cfr b)) as [w|] eqn:E; auto. destruct (ri_gb _ _ _ _ _ R _ _ E) as (Q & _). fold b in Q. lia. }
    assert (Hmrg : forall r m up, th b t = PMrg2 r (croot b) m up -> False).
    { intros r m up E. destruct (mrg2_not_removed _ _ _ _ E) as (_ & M1 & M2).
      destruct (r_cur _ _ _ HR) as [Er|((d & D1 & D2 & _) & _)].
      - rewrite Er in M2. destruct (r_live _ _ _ HR). congruence.
      - apply M1. exists d. auto. }
    assert (Hnd : dd G' (cfr b) = None \/ ~ cfr b < cfr b').
    { destruct (dd G' (cfr b)) eqn:Ed; auto. right. intros Hlt.
      destruct (x_die _ _ _ _ X (cfr b) Hlt) as [(Q & _)|(u & Hk)]; [congruence|lia|].
      pose proof (i_pc _ _ _ I u) as Hpc. destruct (th b u); cbn [kills pc_ok] in Hk, Hpc; try (destruct Hk; fail); subst.
      - destruct Hpc as ((_ & _ & _ & (Q & _) & _) & _). lia.
      - destruct Hpc as (_ & (Q & _) & _). lia. }
    destruct late eqn:El.
    + rewrite retire_out.
      * destruct Hnew as [->|[(Q & _)|(-> & _)]]; auto.
      * intros Hin. destruct (Hrc _ Hin) as [(r & m & up & E)|[(r & q & E & Hh')|(Q & _)]]; [| |discriminate].
        -- destruct Hnew as [Q|[(_ & (r' & p' & Q))|(_ & _ & (r' & stk & x & y & k & Q))]]; [|congruence|congruence].
           rewrite Q in E. eauto.
        -- destruct Hnew as [Q|[(Q & _)|(_ & _ & (r' & stk & x & y & k & Q))]]; [| |congruence].
           ++ rewrite Q in Hh'. destruct (Hh _ Hh') as (_ & _ & _ & _ & [(r' & Q')|(Hrm & _)]); [congruence|].
              pose proof (cstep_shrst osl repaired _ _ _ _ _ _ Hstep E) as Ec.
              change (croot c) with (croot b') in Ec. pose proof (i_pc _ _ _ I t) as Hpc. rewrite E in Hpc.
              destruct Hpc as (_ & _ & Hpl). destruct (Hrd _ Hrm) as (T & _ & Hd). congruence.
           ++ destruct (Hh _ Hh') as (_ & _ & _ & _ & [(r' & Q')|(Hrm & _)]); [congruence|].
              destruct (Hrd _ Hrm) as (T & _ & Hd). destruct Q. congruence.
    + intros q Hq. destruct Hnew as [->|[((Q1 & Q2) & _)|(-> & Q & _)]].
      * eapply gle_dle; [apply X|apply HR|auto|auto].
      * eapply gle_dle; [apply X|exact Q1|auto|]. rewrite Q2. exact Logic.I.
      * destruct Hnd as [-> |Hnd]; [exact Logic.I|]. now destruct Hnd.
  - intros u.
    assert (Hkeep : forall v p, In p (hold s v) -> v <> t \/ (exists r, th b t = PShrL r p) \/ (exists r q, th b t = PShrL r q) -> late = true /\ p < cfr b' /\
      retire rl (act s) (gb s) p = None /\ lv G' p <> 0 /\
      ((exists r, th b' v = PShrL r p) \/ (removed_at b' p /\ exists q, shrinking (th b' v) q))).
    { intros v p Hin Hv. destruct (ri_hold _ _ _ _ _ R v) as (_ & Hh). fold b in Hh.
      destruct (Hh p Hin) as (K1 & K2 & K3 & K4 & K5). split; [auto|]. split; [eapply ext_lt; eauto|].
      split; [|split; [rewrite (g_lv _ _ _ _ (x_gle _ _ _ _ X) p K2); auto|]].
      - rewrite retire_out; auto. intros Hin'.
        assert (Hsv : exists q, shrinking (th b v) q).
        { destruct K5 as [(r & E)|(_ & q & E)]; [exists p; left; eauto|eauto]. }
        destruct (ret_cases p Hin') as [(r & m & up & E)|[(r & q & E & Hh')|(El & _)]]; [| |congruence].
        + destruct (mrg2_not_removed _ _ _ _ E) as (_ & M1 & M2). destruct K5 as [(r' & E')|(K5 & _)]; [|auto].
          pose proof (i_pc _ _ _ I v) as Hpc. rewrite E' in Hpc. destruct Hpc as (_ & (_ & Q) & _). congruence.
        + destruct Hsv as (q' & Hsv). assert (v = t) by (eapply shr_same; eauto; right; eauto). subst v.
          destruct Hv as [Hv|[(r' & Hv)|(r' & q0 & Hv)]]; congruence.
      - destruct (Nat.eq_dec v t) as [->|Hne].
        + destruct Hv as [Hv|Hv]; [congruence|]. right.
          assert (Hv' : exists r q, th b t = PShrL r q) by (destruct Hv as [(r & Hv)|Hv]; eauto). clear Hv.
          destruct Hv' as (r & q & Hv). destruct (dropped_dies r q Hv) as (D1 & _ & _).
          destruct (cstep_dropped osl repaired _ _ _ _ _ _ Hstep Hv) as (D2 & _). split; [|exact D2].
          destruct K5 as [(r' & E)|(K5 & _)]; [congruence|]. now apply removed_stays.
        + rewrite Hoth by auto. destruct K5 as [K5|(K5 & K6)]; [now left|right]. split; [now apply removed_stays|auto]. }
    unfold supd. destruct (Nat.eqb_spec u t) as [->|Hne].
    2:{ split; [apply (ri_hold _ _ _ _ _ R u)|]. intros p Hin. apply Hkeep; auto. }
    destruct (ri_hold _ _ _ _ _ R t) as (Hnd & Hh). fold b in Hh.
    assert (Hnil : (forall q, ~ shrinking (th b t) q) -> hold s t = []).
    { intros Hq. destruct (hold s t) as [|p ps] eqn:Eh; auto. exfalso.
      destruct (Hh p (or_introl eq_refl)) as (_ & _ & _ & _ & [(r & E)|(_ & q & E)]); [apply (Hq p); left; eauto|eapply Hq; eauto]. }
    assert (Hdrop : forall r q, late = true -> th b' t = PShrL r q -> (exists r0, th b t = PShr r0 q) \/ (exists r0 p0, th b t = PShrL r0 p0) ->
      q < cfr b' /\ retire rl (act s) (gb s) q = None /\ lv G' q <> 0 /\ ~ In q (hold s t)).
    { intros r q El E' Hcs. pose proof (i_pc _ _ _ I' t) as Hpc'. rewrite E' in Hpc'. destruct Hpc' as (_ & (Hp' & Hl') & Hlv' & _).
      split; [auto|]. split; [|split; [auto|]].
      - rewrite retire_out.
        + destruct (gb s q) as [w|] eqn:Eg; auto. exfalso.
          destruct (ri_gb _ _ _ _ _ R q w Eg) as (Hp & _ & [(T & Hd & _)|(Q & _)]); [|congruence].
          rewrite (gle_dead _ _ _ _ _ _ (x_gle _ _ _ _ X) Hp Hd) in Hl'. discriminate.
        + intros Hin. destruct (ret_cases q Hin) as [(r' & m & up & E)|[(r' & q' & E & _)|(Q & _)]]; [| |congruence];
            destruct Hcs as [(r0 & Q)|(r0 & p0 & Q)]; congruence.
      - intros Hin. assert (Hrm : removed_at b' q).
        { destruct (Hh q Hin) as (_ & _ & _ & _ & [(r' & E)|(K5 & _)]); [|now apply removed_stays].
          exact (proj1 (dropped_dies _ _ E)). }
        destruct Hrm as (d & Ed & Hr). destruct (h_dead _ _ _ _ _ H' q d Ed Hr) as (Q & _). congruence. }
    destruct (th b t) eqn:E; cbn [held_after root_dropped];
      try (rewrite Hnil by (intros q [(r' & Q)|(r' & Q)]; discriminate); destruct late; split; [constructor|intros ? []|constructor|intros ? []]; fail).
    + rewrite Hnil by (intros q [(r' & Q)|(r' & Q)]; discriminate).
      destruct late eqn:El; [|split; [constructor|intros ? []]].
      destruct (th b' t) eqn:E'; cbn [app]; try (split; [constructor|intros ? []]; fail).
      split; [constructor; [intros []|constructor]|]. intros q [<-|[]].
      assert (Q0 : th b t = PShr rt1 p0).
      { destruct (cstep_shrl osl repaired _ _ _ _ _ _ Hstep E') as [Q|(q' & Q & _)]; [exact Q|congruence]. }
      destruct (Hdrop rt1 p0 eq_refl eq_refl) as (D1 & D2 & D3 & _); [left; exists rt1; congruence|].
      split; [auto|]. split; [auto|]. split; [auto|]. split; [auto|]. left. eauto.
    + destruct late eqn:El.
      2:{ split; [auto|]. intros q Hq. apply Hkeep; eauto. }
      destruct (th b' t) eqn:E'; cbn [app];
        try (split; [auto|]; intros q Hq; rewrite <- E'; apply Hkeep; eauto; fail).
      destruct (Hdrop rt1 p0 eq_refl eq_refl) as (D1 & D2 & D3 & D4); [right; eauto|].
      split; [now constructor|]. intros q [<-|Hq].
      * repeat (split; [auto|]). left. eauto.
      * rewrite <- E'. apply Hkeep; eauto.
    + split; [constructor|intros ? []].
  - intros u r p E. unfold supd. destruct (Nat.eqb_spec u t) as [->|Hne].
    + assert (Hd : forall p0 h, th b t = p0 -> (exists r0 q0, p0 = PShr r0 q0 \/ p0 = PShrL r0 q0) ->
        In p (root_dropped p0 (th b' t)) /\ retired_now false p0 (th b' t) h = root_dropped p0 (th b' t) /\
        held_after true p0 (th b' t) h = root_dropped p0 (th b' t) ++ h).
      { intros p0 h _ (r0 & q0 & [-> | ->]); rewrite E; cbn; auto. }
      assert (Hc : exists r0 q0, th b t = PShr r0 q0 \/ th b t = PShrL r0 q0).
      { destruct (cstep_shrl osl repaired _ _ _ _ _ _ Hstep E) as [Q|(q & Q & _)]; eauto. }
      destruct (Hd _ (hold s t) eq_refl Hc) as (D1 & D2 & D3).
      unfold rl in *. destruct late.
      * rewrite D3. apply in_or_app. auto.
      * rewrite D2. rewrite retire_in by auto. discriminate.
    + rewrite Hoth in E by auto. pose proof (ri_shr _ _ _ _ _ R u r p E) as Q. unfold rl in *. destruct late; auto.
      intros Hn. destruct (in_dec Nat.eq_dec p (retired_now false (th b t) (th b' t) (hold s t))) as [Hi|Hi];
        [rewrite retire_in in Hn by auto; discriminate|rewrite retire_out in Hn; auto].
  - intros p Hr.
    assert (Hgb : gb s p <> None -> retire rl (act s) (gb s) p <> None).
    { intros Hn Hn'. destruct (in_dec Nat.eq_dec p rl) as [Hi|Hi];
        [rewrite retire_in in Hn' by auto; discriminate|rewrite retire_out in Hn'; auto]. }
    assert (Hhold : forall u, In p (hold s u) -> retire rl (act s) (gb s) p <> None \/
      exists u, In p (supd (hold s) t (held_after late (th b t) (th b' t) (hold s t)) u)).
    { intros u Hu. destruct (Nat.eq_dec u t) as [->|Hne]; [|right; exists u; now rewrite supd_diff].
      destruct (match th b t with PShrSt _ _ => true | _ => false end) eqn:Es.
      - left. rewrite retire_in; [discriminate|]. unfold rl. destruct (th b t); try discriminate. exact Hu.
      - right. exists t. rewrite supd_same.
        assert (Hx : forall q q' h, In p h -> match q with PShrSt _ _ => true | _ => false end = false -> In p (held_after late q q' h)).
        { intros q q' h Hh Hq. destruct q; try discriminate; cbn [held_after]; destruct late; auto; apply in_or_app; auto. }
        now apply Hx. }
    destruct (removed_new p Hr) as [Hr'|[(r & m & up & E)|(r & E)]].
    + destruct (ri_leak _ _ _ _ _ R p Hr') as [Q|(u & Q)]; eauto.
    + left. rewrite retire_in; [discriminate|]. unfold rl. rewrite E. now left.
    + pose proof (ri_shr _ _ _ _ _ R t r p E) as Q.
      assert (Q' : gb s p <> None \/ In p (hold s t)) by (destruct late; auto). destruct Q'; eauto.
Qed.

End Call.

(** ** Executions *)

Definition starts (v : mover) (s : scfg) : Prop :=
  match v with
  | Caller t => th (base s) t = PIdle
  | Scanner u _ => sth s u = SIdle
  end.

(** No call and no scan starts while TryShrinkTree is removing roots
    (psl/b_tree.hpp:845-857, osl/b_tree.hpp:818-830). *)
Definition guards_calm (v : mover) (s : scfg) : Prop := starts v s -> no_shrink (base s).

(** No iterator that keeps no guard moves to a leaf that has been merged away. *)
Definition iters_calm (v : mover) (s : scfg) : Prop :=
  match v with Caller _ => True | Scanner u _ => hold_calm (base s) (sth s u) end.

(** The executions considered. *)
Definition recl_calm (fx : fixes) (v : mover) (s : rcfg) : Prop :=
  fx_calm fx v (rs s) /\ (late = true \/ guards_calm v (rs s)) /\ (keep = true \/ iters_calm v (rs s)).

Lemma call_step_rinv s G st t l c vs lg' : rinv s G st ->
  (late = true \/ guards_calm (Caller t) (rs s)) ->
  cstep osl repaired t (base (rs s)) = SOk l c ->
  (forall u a, latched (sth (rs s) u) a -> ch c a = ch (base (rs s)) a) ->
  exists G' st', rinv (after late keep (Caller t) s (SCfg (emit c l) vs (sth (rs s)) (sq (rs s)) lg')) G' st'.
Proof.
  intros R Hg E Hlat. pose proof (ri_inv _ _ _ _ _ R) as I.
  pose proof (step_good amap_empty osl (base (rs s)) G t I) as Hgd. rewrite E in Hgd.
  destruct Hgd as (G' & I' & X). exists G'.
  destruct (th (base (rs s)) t) eqn:Et.
  1:{ (* the call starts *)
    assert (R0 := begin_rinv s G st (ByCall t) R Et).
    assert (Hn : late = true \/ no_shrink (base (rs s))) by (destruct Hg as [Hg|Hg]; auto).
    specialize (R0 Hn). eexists.
    pose proof (call_rinv _ G _ R0 t l c G' E I' X (or_introl eq_refl) Hlat vs lg') as Q.
    unfold next_r, rl in Q. unfold after, guard_of, retires. cbn [rs base act gb hold th emit] in *.
    rewrite Et in *. cbn [call_guard retired_now root_dropped held_after] in *. destruct late; exact Q. }
  all: assert (Hne : th (base (rs s)) t <> PIdle) by (rewrite Et; discriminate).
  all: destruct (ri_call _ _ _ _ _ R t Hne) as (Hact & _).
  all: pose proof (call_rinv s G st R t l c G' E I' X Hact Hlat vs lg') as Q.
  all: exists st; unfold next_r, rl in Q; unfold after, guard_of, retires; cbn [rs base act gb hold th emit] in *;
    rewrite Et in *; cbn [call_guard]; try exact Q.
  apply (end_rinv _ G' st (ByCall t)) in Q; [exact Q|]. cbn [quiet rs base].
  exact (cstep_ret osl repaired _ _ _ _ _ E Et).
Qed.

Lemma scan_step_rinv s G st u chk p m lg' : rinv s G st ->
  (late = true \/ guards_calm (Scanner u chk) (rs s)) ->
  (keep = true \/ hold_calm (base (rs s)) (sth (rs s) u)) ->
  scan_step osl u chk (base (rs s)) (vn (rs s)) (sth (rs s) u) (sq (rs s) u) = TOk p m ->
  exists st', rinv (after late keep (Scanner u chk) s
    (SCfg (base (rs s)) (vn (rs s)) (supd (sth (rs s)) u p)
       (match sth (rs s) u with SIdle => supd (sq (rs s)) u (tl (sq (rs s) u)) | _ => sq (rs s) end) lg')) G st'.
Proof.
  intros R Hg Hk E. unfold after, guard_of, retires. cbn [sth]. rewrite supd_same.
  destruct (sth (rs s) u) eqn:Es.
  1:{ (* the scan starts *)
    cbn [scan_step] in E. destruct (sq (rs s) u) as [|[lo hi] q] eqn:Eq; [discriminate|]. injection E as <- <-.
    assert (Hn : late = true \/ no_shrink (base (rs s))) by (destruct Hg as [Hg|Hg]; auto).
    assert (R0 := begin_rinv s G st (ByScan u) R). cbn [quiet] in R0. rewrite Es in R0. specialize (R0 Logic.I Hn).
    eexists. cbn [scan_guard]. refine (move_rinv _ G _ u (SRoot lo hi) _ lg' R0 _ _).
    - cbn [scan_ok act]. split; [now left|]. apply (ri_q _ _ _ _ _ R u lo hi). rewrite Eq. now left.
    - cbn [rs sq]. intros v lo' hi'. unfold supd. destruct (Nat.eqb_spec v u) as [->|]; auto.
      cbn [tl]. rewrite Eq. now right. }
  all: rewrite <- Es in E, Hk; assert (Hne : sth (rs s) u <> SIdle) by (rewrite Es; discriminate);
    pose proof (scan_keeps s G st R u chk p m (ri_scan _ _ _ _ _ R u) Hne Hk E) as Hok;
    pose proof (move_rinv s G st u p (sq (rs s)) lg' R Hok (fun _ _ _ x => x)) as Q; rewrite Es in E.
  all: exists st; try (destruct p; exact Q).
  - (* the end of Scan in psl *)
    destruct p; cbn [scan_guard]; try exact Q. destruct keep eqn:Ek; [exact Q|].
    rewrite <- Ek in Q. apply (end_rinv _ G st (ByScan u)) in Q; [rewrite <- Ek; exact Q|].
    cbn [quiet rs sth]. rewrite supd_same. exact Ek.
  - cbn [scan_step] in E. injection E as <- <-. cbn [scan_guard].
    apply (end_rinv _ G st (ByScan u)) in Q; [exact Q|]. cbn [quiet rs sth]. rewrite supd_same. exact Logic.I.
Qed.

Lemma rinv_step fx v s s' G st : rinv s G st -> recl_calm fx v s -> rstep osl fx late keep v s s' ->
  exists G' st', rinv s' G' st'.
Proof.
  intros R (Hf & Hg & Hk) Hs. destruct Hs as [v s s' Ht Hs].
  remember (rs s) as s0 eqn:Er. destruct Hs as [t s0 l c vs E Hlat Hv1 Hv2|u chk s0 p m Hck E].
  - rewrite (fx_step _ _ _ _ Hf) in E. subst s0. eapply call_step_rinv; eauto.
  - subst s0. exists G. eapply scan_step_rinv; eauto.
Qed.

Lemma rinv_use fx v s G st : rinv s G st -> recl_calm fx v s -> ~ use_after_free v s.
Proof.
  intros R (Hf & Hg & Hk) (a & Ha & Hr). destruct v as [t|u chk]; cbn [touches] in Ha.
  - exact (call_unreleased late keep s G st R t a Ha Hr).
  - exact (scan_unreleased s G st R u a Hk Ha Hr).
Qed.

Lemma rinv_twice fx v s G st : rinv s G st -> recl_calm fx v s -> ~ double_free osl fx late v s.
Proof.
  intros R (Hf & Hg & Hk) (s' & Hs & Hx). pose proof (ri_inv _ _ _ _ _ R) as I.
  remember (rs s) as s0 eqn:Er. destruct Hs as [t s0 l c vs E Hlat Hv1 Hv2|u chk s0 p m Hck E].
  - rewrite (fx_step _ _ _ _ Hf) in E. subst s0.
    pose proof (step_good amap_empty osl (base (rs s)) G t I) as Hgd. rewrite E in Hgd.
    destruct Hgd as (G' & I' & X). cbn [retires base] in Hx. destruct Hx as [Hx|(a & Ha & Hx)]; apply Hx.
    + exact (ret_nodup s G st R t l c).
    + exact (ret_fresh s G st R t l c G' E I' X a Ha).
  - cbn [retires] in Hx. destruct Hx as [Hx|(a & [] & _)]. apply Hx. constructor.
Qed.

Lemma rinv_init prog scans : (forall t c, In c (prog t) -> kvalid (call_key c)) ->
  (forall u lo hi, In (lo, hi) (scans u) -> vb lo /\ vb hi) -> rinv (rinit prog scans) g0 (fun _ => 0).
Proof.
  intros Hp Hq. pose proof (init_inv prog Hp) as I. constructor; cbn; auto; try congruence; try tauto.
  - destruct late; auto.
  - intros t. split; [constructor|tauto].
  - intros p (d & E & Hr). pose proof (h_dead _ _ _ _ _ (i_heap _ _ _ I) p d E Hr) as (Q & _). exfalso. now apply Q.
Qed.

Lemma rreach_inv fx prog scans s : (forall t c, In c (prog t) -> kvalid (call_key c)) ->
  (forall u lo hi, In (lo, hi) (scans u) -> vb lo /\ vb hi) ->
  rreach osl fx late keep (recl_calm fx) prog scans s -> exists G st, rinv s G st.
Proof.
  intros Hp Hq. induction 1 as [|v s s' Hr (G & st & IH) Ha Hs]; [exists g0, (fun _ => 0); now apply rinv_init|].
  eapply rinv_step; eauto.
Qed.

(** No page that has left the tree is forgotten. *)
Lemma rinv_leak s G st p : rinv s G st -> (forall t, th (base (rs s)) t = PIdle) -> p < cfr (base (rs s)) ->
  dd G p <> None -> gb s p <> None.
Proof.
  intros R Hi Hp Hd. pose proof (ri_inv _ _ _ _ _ R) as I.
  destruct (h_some _ _ _ _ _ (i_heap _ _ _ I) p Hp) as (d & E).
  assert (Hr : removed_at (base (rs s)) p).
  { exists d. split; auto. destruct (nd_removed d) eqn:Er; auto. exfalso.
    destruct (dd G p) as [T|] eqn:Ed; [|congruence].
    destruct (i_stale _ _ _ I p d T E Er Ed) as (t & r & m & up & _ & Q). rewrite Hi in Q. discriminate. }
  destruct (ri_leak _ _ _ _ _ R p Hr) as [Q|(t & Q)]; auto.
  destruct (ri_hold _ _ _ _ _ R t) as (_ & Hh). destruct (Hh p Q) as (_ & _ & _ & _ & [(r & E')|(_ & q & [(r & E')|(r & E')])]);
    rewrite Hi in E'; discriminate.
Qed.

End ReclMain.
