(** Proofs about the optimistic reader of SeqModel. *)
From Coq Require Import List Arith ZArith Bool Lia.
From Verif Require Import Params Mem Common FixModel VarModel SeqModel.
Import ListNotations.

Section SeqProofs.
Context {P : Params}.

(** ** Reader programs compute what the node functions compute *)

Lemma rrun_bind {A B} (p : rp A) (g : A -> rp B) m :
  rrun (rbind p g) m = rrun (g (rrun p m)) m.
Proof. induction p as [a|f k IH]; simpl; auto. Qed.

Lemma rrun_rbo {A B} (p : rp (option A)) (g : A -> rp (option B)) m :
  rrun (rbo p g) m = let? a := rrun p m in rrun (g a) m.
Proof. unfold rbo. rewrite rrun_bind. destruct (rrun p m); reflexivity. Qed.

Lemma rrun_gbytes m mm o n :
  (forall i, m (Byte i) = VC (mm i)) -> rrun (gbytes o n) m = Some (rd mm o n).
Proof.
  intros Hm. revert o. induction n as [|n IH]; intros o; [reflexivity|].
  simpl gbytes. simpl rrun. rewrite Hm, rrun_rbo, IH. simpl. unfold rd. simpl.
  f_equal. f_equal; [f_equal; lia|].
  rewrite <- seq_shift, map_map. apply map_ext. intros; f_equal; lia.
Qed.

Lemma rrun_gmem m mm o n :
  (forall i, m (Byte i) = VC (mm i)) -> rrun (gmem o n) m = mrd mm o n.
Proof.
  intros Hm. unfold gmem, mrd. destruct (inpage o n); [|reflexivity].
  now apply rrun_gbytes.
Qed.

Lemma rrun_gsearch kf kg key m fuel : (forall i, rrun (kf i) m = kg i) ->
  forall b e, rrun (gsearch fuel kf key b e) m = bsearch fuel kg key b e.
Proof.
  intros Hk. induction fuel as [|fuel IH]; intros b e; [reflexivity|].
  simpl. destruct (Z.leb b e); [|reflexivity].
  rewrite rrun_rbo, Hk. destruct (kg _) as [ik|]; [|reflexivity].
  destruct (ltb key ik); [apply IH|]. destruct (ltb ik key); [apply IH|reflexivity].
Qed.

Lemma rrun_gf_key n i : rrun (gf_key i) (ffields n) = fx_key n i.
Proof.
  unfold gf_key, fx_key. rewrite rrun_rbo.
  rewrite (rrun_gmem _ (fn_mem n)) by reflexivity.
  destruct (mrd _ _ _); reflexivity.
Qed.

Lemma rrun_gf_comphigh n key : rrun (gf_comphigh key) (ffields n) = fx_comphigh n key.
Proof.
  unfold gf_comphigh, fx_comphigh. rewrite rrun_rbo. simpl.
  destruct (fn_high n); [|reflexivity].
  rewrite rrun_rbo. simpl. rewrite rrun_rbo, rrun_gf_key.
  destruct (fx_key n (fn_rc n)); reflexivity.
Qed.

Lemma rrun_gf_search n key : rrun (gf_search key) (ffields n) = fx_search n key.
Proof.
  unfold gf_search, fx_search. rewrite !rrun_rbo. cbn [gb rrun ffields].
  rewrite rrun_rbo. cbn [gn rrun ffields].
  rewrite rrun_rbo, (rrun_gsearch _ (fx_key n)) by (intros; apply rrun_gf_key).
  destruct (bsearch _ _ _ _ _) as [[[] p]|]; reflexivity.
Qed.

Lemma rrun_gf_pay n i len :
  rrun (gf_pay i len) (ffields n) =
  let? b := mrd (fn_mem n) (fp_off (fn_pl n) i) len in dec_pay b.
Proof.
  unfold gf_pay. rewrite rrun_rbo. cbn [gn rrun ffields]. rewrite rrun_rbo.
  rewrite (rrun_gmem _ (fn_mem n)) by reflexivity.
  destruct (mrd _ _ _); reflexivity.
Qed.

Lemma rrun_gv_meta n i : rrun (gv_meta i) (vfields n) = vx_meta (vn_mem n) i.
Proof.
  unfold gv_meta, vx_meta. rewrite rrun_rbo.
  rewrite (rrun_gmem _ (vn_mem n)) by reflexivity. destruct (mrd _ _ _); reflexivity.
Qed.

Lemma rrun_gv_mkey n mt : rrun (gv_mkey mt) (vfields n) = vx_mkey (vn_mem n) mt.
Proof.
  unfold gv_mkey, vx_mkey. rewrite rrun_rbo.
  rewrite (rrun_gmem _ (vn_mem n)) by reflexivity. destruct (mrd _ _ _); reflexivity.
Qed.

Lemma rrun_gv_key n i : rrun (gv_key i) (vfields n) = vx_key n i.
Proof.
  unfold gv_key, vx_key. rewrite rrun_rbo, rrun_gv_meta.
  destruct (vx_meta _ _); [apply rrun_gv_mkey|reflexivity].
Qed.

Lemma rrun_gv_highkey n : rrun gv_highkey (vfields n) = vx_highkey n.
Proof.
  unfold gv_highkey, vx_highkey. rewrite rrun_rbo. cbn [gn rrun vfields].
  rewrite rrun_rbo. cbn [gn rrun vfields]. rewrite rrun_rbo, (rrun_gmem _ (vn_mem n)) by reflexivity.
  destruct (mrd _ _ _); reflexivity.
Qed.

Lemma rrun_gv_comphigh n key : rrun (gv_comphigh key) (vfields n) = vx_comphigh n key.
Proof.
  unfold gv_comphigh, vx_comphigh. rewrite rrun_rbo. cbn [gn rrun vfields].
  destruct (vn_hlen n =? 0); [reflexivity|].
  rewrite rrun_rbo, rrun_gv_highkey. destruct (vx_highkey n); reflexivity.
Qed.

Lemma rrun_gv_search n key : rrun (gv_search key) (vfields n) = vx_search n key.
Proof.
  unfold gv_search, vx_search. rewrite !rrun_rbo. cbn [gb rrun vfields].
  rewrite rrun_rbo. cbn [gn rrun vfields].
  rewrite rrun_rbo, (rrun_gsearch _ (vx_key n)) by (intros; apply rrun_gv_key).
  destruct (bsearch _ _ _ _ _) as [[[] p]|]; try reflexivity.
  cbn [fst snd]. rewrite rrun_rbo, rrun_gv_meta. unfold vx_recdel.
  destruct (vx_meta _ _) as [mt|]; [|reflexivity]. reflexivity.
Qed.

Lemma rrun_gv_pay n i len :
  rrun (gv_pay i len) (vfields n) =
  let? mt := vx_meta (vn_mem n) i in
  let? b := mrd (vn_mem n) (md_off mt + md_klen mt) len in dec_pay b.
Proof.
  unfold gv_pay. rewrite rrun_rbo, rrun_gv_meta.
  destruct (vx_meta _ _) as [mt|]; [|reflexivity].
  rewrite rrun_rbo, (rrun_gmem _ (vn_mem n)) by reflexivity.
  destruct (mrd _ _ _); reflexivity.
Qed.

Lemma rrun_gf_read n key :
  rrun (gf_read key) (ffields n) =
  let? here := (if fn_removed n then Some false else fx_comphigh n key) in
  if here : bool then let? r := fx_read n key in Some (inr r) else Some (inl (fn_next n)).
Proof.
  unfold gf_read, g_read. rewrite rrun_rbo. cbn [gb rrun ffields].
  assert (E : rrun (if fn_removed n then Ret (Some false) else gf_comphigh key) (ffields n) =
              if fn_removed n then Some false else fx_comphigh n key)
    by (destruct (fn_removed n); [reflexivity|apply rrun_gf_comphigh]).
  rewrite rrun_rbo, E. clear E.
  destruct (if fn_removed n then Some false else fx_comphigh n key) as [[]|]; [| |reflexivity].
  2:{ rewrite rrun_rbo. reflexivity. }
  unfold fx_read. rewrite rrun_rbo, rrun_gf_search.
  destruct (fx_search n key) as [[[] pos]|]; cbn [fst snd]; try reflexivity.
  rewrite rrun_rbo, rrun_gf_pay. unfold fx_payload.
  destruct (mrd _ _ _) as [b|]; [|reflexivity].
  destruct (dec_pay b) as [[v|a]|]; reflexivity.
Qed.

Lemma rrun_gv_read n key :
  rrun (gv_read key) (vfields n) =
  let? here := (if vn_removed n then Some false else vx_comphigh n key) in
  if here : bool then let? r := vx_read n key in Some (inr r) else Some (inl (vn_next n)).
Proof.
  unfold gv_read, g_read. rewrite rrun_rbo. cbn [gb rrun vfields].
  assert (E : rrun (if vn_removed n then Ret (Some false) else gv_comphigh key) (vfields n) =
              if vn_removed n then Some false else vx_comphigh n key)
    by (destruct (vn_removed n); [reflexivity|apply rrun_gv_comphigh]).
  rewrite rrun_rbo, E. clear E.
  destruct (if vn_removed n then Some false else vx_comphigh n key) as [[]|]; [| |reflexivity].
  2:{ rewrite rrun_rbo. reflexivity. }
  unfold vx_read. rewrite rrun_rbo, rrun_gv_search.
  destruct (vx_search n key) as [[[] pos]|]; cbn [fst snd]; try reflexivity.
  rewrite rrun_rbo, rrun_gv_pay. unfold vx_mpay.
  destruct (vx_meta _ _) as [mt|]; [|reflexivity].
  destruct (mrd _ _ _) as [b|]; [|reflexivity].
  destruct (dec_pay b) as [[v|a]|]; reflexivity.
Qed.

Lemma rrun_gf_child n key :
  rrun (gf_child key) (ffields n) =
  let? here := (if fn_removed n then Some false else fx_comphigh n key) in
  if here : bool then
    let? (_, pos) := fx_search n key in let? a := fx_child n pos in Some (Some a)
  else Some None.
Proof.
  unfold gf_child, g_child. rewrite rrun_rbo. cbn [gb rrun ffields].
  assert (E : rrun (if fn_removed n then Ret (Some false) else gf_comphigh key) (ffields n) =
              if fn_removed n then Some false else fx_comphigh n key)
    by (destruct (fn_removed n); [reflexivity|apply rrun_gf_comphigh]).
  rewrite rrun_rbo, E. clear E.
  destruct (if fn_removed n then Some false else fx_comphigh n key) as [[]|]; try reflexivity.
  rewrite rrun_rbo, rrun_gf_search.
  destruct (fx_search n key) as [[rc pos]|]; cbn [fst snd]; try reflexivity.
  rewrite rrun_rbo, rrun_gf_pay. unfold fx_child.
  destruct (mrd _ _ _) as [b|]; [|reflexivity].
  destruct (dec_pay b) as [[v|a]|]; reflexivity.
Qed.

Lemma rrun_gv_child n key :
  rrun (gv_child key) (vfields n) =
  let? here := (if vn_removed n then Some false else vx_comphigh n key) in
  if here : bool then
    let? (_, pos) := vx_search n key in let? a := vx_child n pos in Some (Some a)
  else Some None.
Proof.
  unfold gv_child, g_child. rewrite rrun_rbo. cbn [gb rrun vfields].
  assert (E : rrun (if vn_removed n then Ret (Some false) else gv_comphigh key) (vfields n) =
              if vn_removed n then Some false else vx_comphigh n key)
    by (destruct (vn_removed n); [reflexivity|apply rrun_gv_comphigh]).
  rewrite rrun_rbo, E. clear E.
  destruct (if vn_removed n then Some false else vx_comphigh n key) as [[]|]; try reflexivity.
  rewrite rrun_rbo, rrun_gv_search.
  destruct (vx_search n key) as [[rc pos]|]; cbn [fst snd]; try reflexivity.
  rewrite rrun_rbo, rrun_gv_pay. unfold vx_child.
  destruct (vx_meta _ _) as [mt|]; [|reflexivity].
  destruct (mrd _ _ _) as [b|]; [|reflexivity].
  destruct (dec_pay b) as [[v|a]|]; reflexivity.
Qed.

(** ** Writers that modify pages only under X *)

(** [xs]: pages the thread has X-latched; [ps]: pages it is constructing. *)
Definition rmv := List.remove Nat.eq_dec.
Definition inb (p : addr) (l : list addr) : bool := existsb (Nat.eqb p) l.

Fixpoint disc (xs ps : list addr) (l : list act) : bool :=
  match l with
  | [] => true
  | a :: l' =>
      match a with
      | AWr p _ _ => (inb p xs || inb p ps) && disc xs ps l'
      | ALockX p | ATryX p _ | AUpX p => disc (p :: xs) ps l'
      | ADown p | AUnlockX p => disc (rmv p xs) ps l'
      | ANew p => disc xs (p :: ps) l'
      | APub p => disc xs (rmv p ps) l'
      | _ => disc xs ps l'
      end
  end.

Lemma inb_in p l : inb p l = true <-> In p l.
Proof.
  unfold inb. rewrite existsb_exists. split.
  - intros (x & Hx & E). apply Nat.eqb_eq in E. now subst.
  - intros H. exists p. split; [exact H|apply Nat.eqb_refl].
Qed.

Lemma rmv_in p q l : In q (rmv p l) <-> In q l /\ q <> p.
Proof.
  unfold rmv. split.
  - intros H. apply in_remove in H. tauto.
  - intros [H1 H2]. now apply in_in_remove.
Qed.

Lemma disc_mono l : forall xs ps xs' ps',
  (forall p, In p xs -> In p xs') -> (forall p, In p ps -> In p ps') ->
  disc xs ps l = true -> disc xs' ps' l = true.
Proof.
  induction l as [|a l IH]; intros xs ps xs' ps' Hx Hp H; [reflexivity|].
  assert (Hr : forall (u v : list addr) q, (forall p, In p u -> In p v) ->
            forall p, In p (rmv q u) -> In p (rmv q v))
    by (intros u v q Huv p; rewrite !rmv_in; intuition auto).
  assert (Hc : forall (u v : list addr) q, (forall p, In p u -> In p v) ->
            forall p, In p (q :: u) -> In p (q :: v))
    by (intros u v q Huv p [->|?]; [now left|right; auto]).
  destruct a; cbn [disc] in *; try (eapply IH; [| |exact H]; eauto; fail).
  apply andb_true_iff in H as [H1 H2]. apply andb_true_iff. split.
  - apply orb_true_iff in H1. apply orb_true_iff. rewrite !inb_in in *.
    destruct H1; auto.
  - eapply IH; [| |exact H2]; eauto.
Qed.

Lemma disc_app l1 l2 xs ps :
  disc xs ps l1 = true -> disc [] [] l2 = true -> disc xs ps (l1 ++ l2) = true.
Proof.
  revert xs ps. induction l1 as [|a l1 IH]; intros xs ps H1 H2.
  - simpl. eapply disc_mono; [| |exact H2]; intros p [].
  - destruct a; cbn [disc app] in *; try (apply IH; assumption).
    apply andb_true_iff in H1 as [H1 H3]. rewrite H1. simpl. now apply IH.
Qed.

(** The writes to one page under its latch, followed by more. *)
Lemma disc_ws p w l xs ps :
  In p xs \/ In p ps -> disc xs ps l = true -> disc xs ps (ws p w ++ l) = true.
Proof.
  intros Hp Hl. induction w as [|[f v] w IH]; [exact Hl|].
  cbn [ws map app disc]. change (map _ w) with (ws p w). rewrite IH, andb_true_r.
  apply orb_true_iff. rewrite !inb_in. exact Hp.
Qed.
Lemma disc_ws0 p w xs ps : In p xs \/ In p ps -> disc xs ps (ws p w) = true.
Proof. intros Hp. rewrite <- (app_nil_r (ws p w)). now apply disc_ws. Qed.

Definition disciplined (C : list act -> Prop) : Prop := forall l, C l -> disc [] [] l = true.

Lemma calls_disc C l : disciplined C -> calls C l -> disc [] [] l = true.
Proof.
  intros HC. induction 1 as [|l l' H _ IH]; [reflexivity|].
  apply disc_app; auto.
Qed.

Lemma disc_up_unlock p w l xs ps :
  disc (rmv p (p :: xs)) ps l = true -> disc xs ps (up_unlock p w ++ l) = true.
Proof.
  intros H. unfold up_unlock. cbn [app disc]. rewrite <- app_assoc.
  apply disc_ws; [left; now left|]. exact H.
Qed.

Ltac dd :=
  repeat (cbn [app disc];
    lazymatch goal with
    | |- disc _ _ (ws _ _ ++ _) = true => apply disc_ws; [simpl; rewrite ?rmv_in; intuition auto|]
    | |- disc _ _ (ws _ _) = true => apply disc_ws0; simpl; rewrite ?rmv_in; intuition auto
    | |- disc _ _ (up_unlock _ _ ++ _) = true => apply disc_up_unlock
    | |- disc _ _ (up_unlock _ _) = true =>
        match goal with |- disc ?x ?p ?l = _ => rewrite <- (app_nil_r l) end;
        apply disc_up_unlock
    | |- disc _ _ (up_down _ _) = true => unfold up_down
    | |- true = true => reflexivity
    end).

Lemma disc_latch_call : disciplined latch_call.
Proof. intros l []; reflexivity. Qed.
Lemma disc_new_call : disciplined new_call.
Proof. intros l []; dd. Qed.

Lemma disc_osl_fix : disciplined osl_fix_call.
Proof. intros l []; try (now apply disc_latch_call); try (now apply disc_new_call); dd. Qed.
Lemma disc_osl_var : disciplined osl_var_call.
Proof. intros l []; try (now apply disc_latch_call); try (now apply disc_new_call); dd. Qed.
Lemma disc_oml_fix : disciplined oml_fix_call.
Proof. intros l []; try (now apply disc_latch_call); try (now apply disc_new_call); dd. Qed.
Lemma disc_oml_var0 : disciplined oml_var_call0.
Proof. intros l []; try (now apply disc_latch_call); try (now apply disc_new_call); dd. Qed.

(** ** Invariant *)

Definition inv (s : st) : Prop := forall t, exists xs ps,
  disc xs ps (s_prog s t) = true /\
  (forall p, In p xs -> l_own (s_latch s p) = OX t /\ s_life s p <> Unused) /\
  (forall p, In p ps -> s_life s p = Private t).

Lemma initial_inv C s : disciplined C -> initial C s -> inv s.
Proof.
  intros HC (_ & _ & H) t. exists [], []. split; [|split; intros p []].
  exact (calls_disc C _ HC (H t)).
Qed.

Lemma upd_eq {A} (m : nat -> A) a x : upd m a x a = x.
Proof. unfold upd. now rewrite Nat.eqb_refl. Qed.
Lemma upd_neq {A} (m : nat -> A) a b x : a <> b -> upd m a x b = m b.
Proof. intros H. unfold upd. destruct (Nat.eqb_spec a b); congruence. Qed.
Lemma upd_case {A} (m : nat -> A) a x b :
  (a = b /\ upd m a x b = x) \/ (a <> b /\ upd m a x b = m b).
Proof.
  destruct (Nat.eq_dec a b) as [<-|Hn]; [left|right]; split; auto.
  - apply upd_eq.
  - now apply upd_neq.
Qed.

(** What one latch operation by [t] can do to the owner. *)
Lemma latch_act_own t a l l' : latch_act t a l = Some l' ->
  forall u, u <> t -> l_own l = OX u -> l_own l' = OX u.
Proof.
  intros H u Hu Ho. unfold latch_act in H. rewrite Ho in H.
  destruct a; try discriminate H;
    repeat match type of H with
           | context [Nat.eqb ?x ?y] => destruct (Nat.eqb_spec x y); [|try discriminate H]
           end; subst; try congruence;
    injection H as <-; simpl; auto.
Qed.

Lemma latch_act_ver t a l l' : latch_act t a l = Some l' ->
  l_ver l <= l_ver l' /\
  (forall u, l_own l = OX u -> l_own l' = OX u \/ l_ver l < l_ver l').
Proof.
  intros H. unfold latch_act in H.
  destruct a; destruct (l_own l) eqn:Eo; try discriminate H;
    repeat match type of H with
           | context [Nat.eqb ?x ?y] => destruct (Nat.eqb_spec x y); [|try discriminate H]
           end; simpl in H; try discriminate H;
    injection H as <-; simpl; (split; [lia|]); intros; auto; try discriminate.
Qed.

(** The three kinds of steps. *)
Lemma act_step_cases t a s s' : act_step t a s = Some s' ->
  (exists p, a = ANew p /\ s_life s p = Unused /\
     s' = St (s_mem s) (upd (s_latch s) p (Latch 0 OFree 0))
             (upd (s_life s) p (Private t)) (s_prog s)) \/
  (exists p, a = APub p /\ s_life s p = Private t /\
     s' = St (s_mem s) (s_latch s) (upd (s_life s) p Shared) (s_prog s)) \/
  (exists p, a = APub p /\ s_life s p = Shared /\ s' = s) \/
  (exists p f v, a = AWr p f v /\ s_life s p <> Unused /\
     s' = St (upd (s_mem s) p (fupd (s_mem s p) f v)) (s_latch s) (s_life s) (s_prog s)) \/
  (exists l, latch_act t a (s_latch s (page_of a)) = Some l /\
     s_life s (page_of a) <> Unused /\
     (forall p, a <> ANew p) /\ (forall p, a <> APub p) /\ (forall p f v, a <> AWr p f v) /\
     s' = St (s_mem s) (upd (s_latch s) (page_of a) l) (s_life s) (s_prog s)).
Proof.
  intros H. unfold act_step in H.
  destruct a; cbn [page_of] in H;
    try (do 4 right; destruct (s_life s p) eqn:El; try discriminate H;
         destruct (latch_act _ _ _) as [l|] eqn:E; try discriminate H; injection H as <-;
         exists l; cbn [page_of]; rewrite El; repeat split; auto; congruence).
  - destruct (s_life s p) eqn:El; try discriminate H. injection H as <-. left. eauto.
  - destruct (s_life s p) eqn:El; try discriminate H.
    + destruct (Nat.eqb_spec t t0); try discriminate H. subst. injection H as <-.
      right; left. eauto.
    + injection H as <-. do 2 right. left. eauto.
  - do 3 right. left. exists p, f, v.
    destruct (s_life s p) eqn:El; try discriminate H; injection H as <-;
      repeat split; auto; congruence.
Qed.

Lemma step_inv s s' : inv s -> wr_step s s' -> inv s'.
Proof.
  intros HI (t & a & rest & s1 & Hp & Ha & ->) u. simpl.
  assert (Hpr : s_prog s1 = s_prog s)
    by (destruct (act_step_cases _ _ _ _ Ha) as
          [(?&_&_&->)|[(?&_&_&->)|[(?&_&_&->)|[(?&?&?&_&_&->)|(?&_&_&_&_&_&->)]]]]; reflexivity).
  rewrite Hpr.
  destruct (Nat.eq_dec t u) as [<-|Hu].
  - rewrite upd_eq. destruct (HI t) as (xs & ps & Hd & Hx & Hps). rewrite Hp in Hd.
    destruct (act_step_cases _ _ _ _ Ha) as
      [(p&->&El&->)|[(p&->&El&->)|[(p&->&El&->)|[(p&f&v&->&El&->)|(l&Hl&El&N1&N2&N3&->)]]]];
      cbn [disc s_latch s_life] in *.
    + exists xs, (p :: ps). split; [exact Hd|]. split.
      * intros q Hq. destruct (Hx q Hq). rewrite !upd_neq by congruence. auto.
      * intros q [<-|Hq]; [apply upd_eq|]. pose proof (Hps q Hq).
        rewrite upd_neq by congruence. auto.
    + exists xs, (rmv p ps). split; [exact Hd|]. split.
      * intros q Hq. destruct (Hx q Hq). split; auto.
        destruct (upd_case (s_life s) p Shared q) as [[<- ->]|[_ ->]]; congruence.
      * intros q Hq. apply rmv_in in Hq as [Hq1 Hq2]. rewrite upd_neq by congruence. auto.
    + exists xs, (rmv p ps). split; [exact Hd|]. split; [exact Hx|].
      intros q Hq. apply rmv_in in Hq as [Hq1 Hq2]. auto.
    + apply andb_true_iff in Hd as [_ Hd]. exists xs, ps. auto.
    + assert (Keep : (forall q, In q xs -> l_own l = OX t \/ q <> page_of a) ->
         forall q, In q xs -> l_own (upd (s_latch s) (page_of a) l q) = OX t /\ s_life s q <> Unused).
      { intros Hk q Hq. destruct (Hx q Hq) as [H1 H2]. split; auto.
        destruct (upd_case (s_latch s) (page_of a) l q) as [[<- ->]|[_ ->]]; auto.
        destruct (Hk _ Hq); congruence. }
      destruct a; try (exfalso; exact (N1 _ eq_refl)); try (exfalso; exact (N2 _ eq_refl));
        try (exfalso; exact (N3 _ _ _ eq_refl)); cbn [disc page_of] in *; unfold latch_act in Hl;
        destruct (l_own (s_latch s p)) as [|w|w] eqn:Eo; try discriminate Hl;
        repeat match type of Hl with
           | context [Nat.eqb ?x ?y] => destruct (Nat.eqb_spec x y); [|try discriminate Hl]
           end; simpl in Hl; try discriminate Hl; injection Hl as <-; subst;
        try (exists xs, ps; split; [exact Hd|]; split; [|exact Hps]; apply Keep;
             intros q Hq; destruct (Nat.eq_dec q p) as [->|]; [|now right];
             destruct (Hx p Hq); simpl; left; congruence);
        try (exists (p :: xs), ps; split; [exact Hd|]; split; [|exact Hps];
             intros q [<-|Hq]; [split; [rewrite upd_eq; reflexivity|assumption]|];
             apply Keep; [intros; now left|exact Hq]);
        try (exists (rmv p xs), ps; split; [exact Hd|]; split; [|exact Hps];
             intros q Hq; apply rmv_in in Hq as [Hq1 Hq2]; rewrite upd_neq by congruence;
             auto).
  - rewrite upd_neq by exact Hu.
    destruct (HI u) as (xs & ps & Hd & Hx & Hps). exists xs, ps. split; [exact Hd|].
    destruct (act_step_cases _ _ _ _ Ha) as
      [(p&->&El&->)|[(p&->&El&->)|[(p&->&El&->)|[(p&f&v&->&El&->)|(l&Hl&El&N1&N2&N3&->)]]]];
      cbn [s_latch s_life].
    + split.
      * intros q Hq. destruct (Hx q Hq). rewrite !upd_neq by congruence. auto.
      * intros q Hq. pose proof (Hps q Hq). rewrite upd_neq by congruence. auto.
    + split.
      * intros q Hq. destruct (Hx q Hq). split; auto.
        destruct (upd_case (s_life s) p Shared q) as [[<- ->]|[_ ->]]; congruence.
      * intros q Hq. pose proof (Hps q Hq). rewrite upd_neq by congruence. auto.
    + auto.
    + auto.
    + split; auto. intros q Hq. destruct (Hx q Hq) as [H1 H2]. split; auto.
      destruct (upd_case (s_latch s) (page_of a) l q) as [[<- ->]|[_ ->]]; auto.
      exact (latch_act_own _ _ _ _ Hl u (not_eq_sym Hu) H1).
Qed.

Lemma reach_inv C s : disciplined C -> reach C s -> inv s.
Proof.
  intros HC. induction 1 as [s H|s s' _ IH H]; [eapply initial_inv; eauto|].
  eapply step_inv; eauto.
Qed.

(** A step changes a page only under X, or while it is being constructed. *)
Lemma step_changes s t s' p f : inv s -> thr_step t s s' -> s_mem s' p f <> s_mem s p f ->
  l_own (s_latch s p) = OX t \/ s_life s p = Private t.
Proof.
  intros HI (a & rest & s1 & Hp & Ha & ->) Hch. simpl in Hch.
  destruct (HI t) as (xs & ps & Hd & Hx & Hps). rewrite Hp in Hd.
  destruct (act_step_cases _ _ _ _ Ha) as
      [(q&->&El&->)|[(q&->&El&->)|[(q&->&El&->)|[(q&g&v&->&El&->)|(l&Hl&El&N1&N2&N3&->)]]]];
    try (exfalso; now apply Hch).
  cbn [s_mem] in Hch. destruct (Nat.eq_dec q p) as [<-|Hn].
  - cbn [disc] in Hd. apply andb_true_iff in Hd as [Hd _]. apply orb_true_iff in Hd.
    rewrite !inb_in in Hd. destruct Hd as [Hd|Hd]; [left; now apply Hx|right; now apply Hps].
  - exfalso. apply Hch. now rewrite upd_neq.
Qed.

(** Versions only grow, and leaving X changes the version. *)
Lemma step_ver s s' p : wr_step s s' -> s_life s p <> Unused ->
  l_ver (s_latch s p) <= l_ver (s_latch s' p) /\
  (forall u, l_own (s_latch s p) = OX u ->
     l_own (s_latch s' p) = OX u \/ l_ver (s_latch s p) < l_ver (s_latch s' p)) /\
  s_life s' p <> Unused /\ (s_life s p = Shared -> s_life s' p = Shared).
Proof.
  intros (t & a & rest & s1 & Hp & Ha & ->) HU. cbn [s_latch s_life].
  destruct (act_step_cases _ _ _ _ Ha) as
      [(q&->&El&->)|[(q&->&El&->)|[(q&->&El&->)|[(q&g&v&->&El&->)|(l&Hl&El&N1&N2&N3&->)]]]];
    cbn [s_latch s_life]; try (repeat split; auto; fail).
  - rewrite !upd_neq by congruence. repeat split; auto.
  - destruct (upd_case (s_life s) q Shared p) as [[<- ->]|[_ ->]]; repeat split; auto; congruence.
  - destruct (upd_case (s_latch s) (page_of a) l p) as [[<- ->]|[_ ->]];
      [|repeat split; auto].
    destruct (latch_act_ver _ _ _ _ Hl). repeat split; auto.
Qed.

(** ** Validated reads *)

Lemma rw_fst {R} (c c' : st * rdr R) : rw_step c c' -> fst c' = fst c \/ wr_step (fst c) (fst c').
Proof. destruct 1; simpl; auto. Qed.

Lemma rw_snd {R} (c c' : st * rdr R) : rw_step c c' ->
  r_page (snd c') = r_page (snd c) /\ r_ver (snd c') = r_ver (snd c).
Proof. destruct 1; simpl; auto. Qed.

Lemma rw_inv {R} (c c' : st * rdr R) : rw_step c c' -> inv (fst c) -> inv (fst c').
Proof.
  intros H HI. destruct (rw_fst _ _ H) as [->|Hw]; [exact HI|]. eapply step_inv; eauto.
Qed.

(** Backwards from a successful check: since the version was loaded nobody was in an
    exclusive section and nothing has changed. *)
Lemma rw_back {R} (c c2 : st * rdr R) x :
  rw_steps c c2 -> inv (fst c) -> s_life (fst c) (r_page (snd c)) = Shared ->
  r_ver (snd c) <= l_ver (s_latch (fst c) (r_page (snd c))) ->
  validated c2 x ->
  l_ver (s_latch (fst c) (r_page (snd c))) = r_ver (snd c) /\
  no_x (s_latch (fst c) (r_page (snd c))) /\
  (forall f, s_mem (fst c2) (r_page (snd c)) f = s_mem (fst c) (r_page (snd c)) f) /\
  r_page (snd c2) = r_page (snd c) /\
  x = rrun (r_rest (snd c)) (s_mem (fst c) (r_page (snd c))).
Proof.
  induction 1 as [c|c c1 c2 H1 Hs IH]; intros HI Hsh Hv Hval.
  - destruct Hval as (E1 & E2 & E3). rewrite E1. simpl. auto.
  - assert (HI1 := rw_inv _ _ H1 HI). destruct (rw_snd _ _ H1) as [Ep Ev].
    set (p := r_page (snd c)) in *.
    assert (Hst : l_ver (s_latch (fst c) p) <= l_ver (s_latch (fst c1) p) /\
      (forall u, l_own (s_latch (fst c) p) = OX u ->
        l_own (s_latch (fst c1) p) = OX u \/
        l_ver (s_latch (fst c) p) < l_ver (s_latch (fst c1) p)) /\
      s_life (fst c1) p = Shared).
    { destruct (rw_fst _ _ H1) as [->|Hw]; [auto|].
      destruct (step_ver _ _ p Hw) as (A & B & _ & D); [congruence|]. auto. }
    destruct Hst as (A & B & D).
    rewrite Ep, Ev in IH.
    destruct (IH HI1 D ltac:(lia) Hval) as (Iv & Inx & Im & Ipg & Ix).
    assert (Ev0 : l_ver (s_latch (fst c) p) = r_ver (snd c)) by lia.
    assert (Nx : no_x (s_latch (fst c) p)).
    { intros u Hu. destruct (B u Hu) as [Hu'|Hlt]; [exact (Inx u Hu')|lia]. }
    assert (Hm : forall f, s_mem (fst c1) p f = s_mem (fst c) p f).
    { intros f. destruct (rw_fst _ _ H1) as [->|(t & Ht)]; [reflexivity|].
      pose proof (step_changes _ _ _ p f HI Ht) as Hc.
      destruct H1 as [s s' r Hw|]; simpl in *; [|reflexivity].
      assert (Hdec : s_mem s' p f = s_mem s p f \/ s_mem s' p f <> s_mem s p f).
      { destruct Ht as (a & rest & s1 & Hp & Ha & ->). simpl.
        destruct (act_step_cases _ _ _ _ Ha) as
          [(q&->&El&->)|[(q&->&El&->)|[(q&->&El&->)|[(q&g&v&->&El&->)|(l&Hl&El&N1&N2&N3&->)]]]];
          auto. cbn [s_mem].
        destruct (upd_case (s_mem s) q (fupd (s_mem s q) g v) p) as [[Eq ->]|[_ ->]]; auto.
        exfalso. subst q. destruct (HI t) as (xs & ps & Hd & Hx & Hps). rewrite Hp in Hd.
        cbn [disc] in Hd. apply andb_true_iff in Hd as [Hd _]. apply orb_true_iff in Hd.
        rewrite !inb_in in Hd. destruct Hd as [Hd|Hd].
        - now apply (Nx t), Hx.
        - pose proof (Hps _ Hd). congruence. }
      destruct Hdec as [Hdec|Hdec]; [exact Hdec|].
      destruct (Hc Hdec) as [Hc'|Hc']; [now apply (Nx t) in Hc'|congruence]. }
    split; [exact Ev0|]. split; [exact Nx|]. split; [intros f; now rewrite Im, Hm|].
    split; [now rewrite Ipg|]. rewrite Ix.
    assert (Hr : forall (q : rp R) m m', (forall f, m f = m' f) -> rrun q m = rrun q m').
    { induction q as [a|f k IHq]; intros m m' Hmm; simpl; [reflexivity|].
      rewrite (Hmm f). now apply IHq. }
    destruct H1 as [s s' r Hw|s q ver f k]; simpl in *.
    + now apply Hr.
    + reflexivity.
Qed.

Lemma rw_split {R} (c1 c c2 : st * rdr R) : rw_steps c1 c -> rw_steps c c2 -> rw_steps c1 c2.
Proof. induction 1; auto. intros. econstructor; eauto. Qed.

Lemma rw_fwd {R} (c c' : st * rdr R) : rw_steps c c' -> inv (fst c) ->
  s_life (fst c) (r_page (snd c)) = Shared ->
  inv (fst c') /\ s_life (fst c') (r_page (snd c')) = Shared /\
  r_page (snd c') = r_page (snd c) /\ r_ver (snd c') = r_ver (snd c) /\
  l_ver (s_latch (fst c) (r_page (snd c))) <= l_ver (s_latch (fst c') (r_page (snd c'))).
Proof.
  induction 1 as [c|c c1 c2 H1 Hs IH]; intros HI Hsh; [auto|].
  assert (HI1 := rw_inv _ _ H1 HI). destruct (rw_snd _ _ H1) as [Ep Ev].
  assert (Hst : s_life (fst c1) (r_page (snd c)) = Shared /\
     l_ver (s_latch (fst c) (r_page (snd c))) <= l_ver (s_latch (fst c1) (r_page (snd c)))).
  { destruct (rw_fst _ _ H1) as [->|Hw]; [auto|].
    destruct (step_ver _ _ (r_page (snd c)) Hw) as (A & B & _ & D); [congruence|]. auto. }
  destruct Hst as [S1 S2]. rewrite Ep, Ev in IH.
  destruct (IH HI1 S1) as (A & B & C & D & E). repeat split; auto; try congruence. lia.
Qed.

Theorem validated_consistent {R} C (q : rp R) s0 p r0 c x :
  disciplined C -> reach C s0 -> s_life s0 p = Shared ->
  rd_load s0 p q r0 -> rw_steps (s0, r0) c -> validated c x ->
  x = rrun q (s_mem (fst c) p) /\
  forall c', rw_steps (s0, r0) c' -> rw_steps c' c ->
    no_x (s_latch (fst c') p) /\ (forall f, s_mem (fst c') p f = s_mem (fst c) p f).
Proof.
  intros HC Hr Hl [Hx ->] Hs Hv.
  pose proof (reach_inv _ _ HC Hr) as HI.
  destruct (rw_back _ _ _ Hs HI Hl (Nat.le_refl _) Hv) as (_ & _ & Hm & Hp & Hxr).
  simpl in *. split.
  - rewrite Hxr. clear - Hm.
    assert (Hq : forall (q : rp R) m m', (forall f, m f = m' f) -> rrun q m = rrun q m').
    { induction q0 as [a|f k IHq]; intros m m' Hmm; simpl; [reflexivity|].
      rewrite (Hmm f). now apply IHq. }
    apply Hq. intros f. now rewrite Hm.
  - intros c' H1 H2. destruct (rw_fwd _ _ H1 HI Hl) as (HI' & Hl' & Hp' & Hv' & Hle).
    simpl in *. rewrite Hp' in *.
    assert (Hq : r_ver (snd c') <= l_ver (s_latch (fst c') (r_page (snd c'))))
      by (rewrite Hv', Hp'; exact Hle).
    assert (Hl2 : s_life (fst c') (r_page (snd c')) = Shared) by (rewrite Hp'; exact Hl').
    destruct (rw_back _ _ _ H2 HI' Hl2 Hq Hv) as (A & B & D & E & F). rewrite Hp' in *.
    split; [exact B|]. intros f. symmetry. apply D.
Qed.

End SeqProofs.
