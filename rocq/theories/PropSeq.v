(** Optimistic reads (C22) and where the fields they consult change (C35).

    [reach C s]: [s] is reached by any number of threads whose programs are sequences of the
    calls [C], interleaved action by action (SeqModel.v).  [osl_fix_call], [osl_var_call],
    [oml_fix_call], [oml_var_call] list what the functions of the four optimistic node types
    do with latches and pages, with arbitrary values written. *)
From Coq Require Import List Arith ZArith Bool Lia.
From Verif Require Import Params Mem Common FixModel VarModel SeqModel SeqProofs Inst.
Import ListNotations.

Section Any.
Context {P : Params}.

(** ** Statements *)

(** Every modification of a page that other threads can reach happens while the modifying
    thread holds the exclusive latch of that page. *)
Definition only_under_x (C : list act -> Prop) : Prop :=
  forall s t s' p f, reach C s -> thr_step t s s' -> s_life s p <> Private t ->
    s_mem s' p f <> s_mem s p f -> l_own (s_latch s p) = OX t.

(** For every reader program [q], and every execution between the load of the version and a
    successful check: the result is the one of [q] run without interruption on the page as
    it is at the check; in between nobody was inside an exclusive section of the page, and
    none of its fields changed. *)
Definition reads_consistent (C : list act -> Prop) : Prop :=
  forall R (q : rp R) s0 p r0 c x, reach C s0 -> s_life s0 p = Shared ->
    rd_load s0 p q r0 -> rw_steps (s0, r0) c -> validated c x ->
    x = rrun q (s_mem (fst c) p) /\
    forall c', rw_steps (s0, r0) c' -> rw_steps c' c ->
      no_x (s_latch (fst c') p) /\ (forall f, s_mem (fst c') p f = s_mem (fst c) p f).

(** ** C35 *)

Lemma disc_only C : disciplined C -> only_under_x C.
Proof.
  intros HC s t s' p f Hr Ht Hl Hch.
  destruct (step_changes _ _ _ _ _ (reach_inv _ _ HC Hr) Ht Hch); [assumption|contradiction].
Qed.

Theorem C35_under_x_osl_fixlen : only_under_x osl_fix_call.
Proof. apply disc_only, disc_osl_fix. Qed.
Theorem C35_under_x_osl_varlen : only_under_x osl_var_call.
Proof. apply disc_only, disc_osl_var. Qed.
Theorem C35_under_x_oml_fixlen : only_under_x oml_fix_call.
Proof. apply disc_only, disc_oml_fix. Qed.
(** Without Merge; with it the statement is false, see below. *)
Theorem C35_under_x_oml_varlen_partial : only_under_x oml_var_call0.
Proof. apply disc_only, disc_oml_var0. Qed.

(** What only_under_x is good for: who holds X is alone, and a latch taken with a version is
    taken only if the version is still that one. *)
Lemma latch_alone t a l l' : latch_act t a l = Some l' -> (forall u, l_own l = OX u -> l_shared l = 0) ->
  forall u, l_own l' = OX u -> l_shared l' = 0.
Proof.
  intros H I u Hu. unfold latch_act in H.
  destruct a; try discriminate H; destruct (l_own l) eqn:Eo; try discriminate H;
    repeat (match type of H with context [if ?c then _ else _] => destruct c eqn:? end; try discriminate H);
    injection H as <-; cbn in *; try discriminate; try congruence;
    try (rewrite (I _ eq_refl); reflexivity);
    repeat match goal with
    | E : _ && _ = true |- _ => apply andb_true_iff in E as (? & ?)
    | E : (_ =? 0) = true |- _ => apply Nat.eqb_eq in E
    end; auto.
Qed.

Theorem C35_x_is_alone : forall C s p t, reach C s -> s_life s p <> Unused ->
  l_own (s_latch s p) = OX t -> l_shared (s_latch s p) = 0.
Proof.
  intros C s p t Hr. revert p t. induction Hr as [s Hi|s s' Hr IH (t & a & rest & s1 & _ & Ha & ->)]; intros p u.
  - pose proof Hi as H0. firstorder congruence.
  - cbn [s_life s_latch]. destruct (act_step_cases _ _ _ _ Ha) as [(q & -> & _ & ->)|[(q & -> & Hq & ->)|[(q & -> & Hq & ->)|
      [(q & f & v & -> & Hq & ->)|(l & Hl & Hn & _ & _ & _ & ->)]]]]; cbn [s_life s_latch]; unfold upd.
    + destruct (Nat.eqb_spec q p); [discriminate|apply IH].
    + destruct (Nat.eqb_spec q p) as [->|]; [intros _; apply IH; congruence|apply IH].
    + apply IH.
    + apply IH.
    + destruct (Nat.eqb_spec (page_of a) p) as [Hp|]; [rewrite Hp in *|apply IH]. intros _.
      apply (latch_alone _ _ _ _ Hl). intros x. now apply IH.
Qed.

Theorem C35_try_same_version : forall t s s' p v rest, thr_step t s s' ->
  s_prog s t = ATryS p v :: rest \/ s_prog s t = ATrySIX p v :: rest \/ s_prog s t = ATryX p v :: rest ->
  l_ver (s_latch s p) = v /\ no_x (s_latch s p).
Proof.
  intros t s s' p v rest (a & r & s1 & Ep & Ha & _) Hp. rewrite Ep in Hp. unfold act_step in Ha.
  destruct Hp as [Hp|[Hp|Hp]]; injection Hp as -> ->; cbn [page_of] in Ha; unfold no_x;
    destruct (s_life s p); try discriminate; cbn [latch_act] in Ha; destruct (l_own (s_latch s p)); try discriminate;
    repeat (match type of Ha with context [if ?c then _ else _] => destruct c eqn:? end; try discriminate Ha);
    repeat match goal with
    | E : _ && _ = true |- _ => apply andb_true_iff in E as (? & ?)
    | E : (_ =? _) = true |- _ => apply Nat.eqb_eq in E
    end; split; congruence || auto.
Qed.

(** ** C22 *)

Lemma disc_reads C : disciplined C -> reads_consistent C.
Proof. intros HC R q s0 p r0 c x. now apply validated_consistent. Qed.

Theorem C22_reads_osl_fixlen : reads_consistent osl_fix_call.
Proof. apply disc_reads, disc_osl_fix. Qed.
Theorem C22_reads_osl_varlen : reads_consistent osl_var_call.
Proof. apply disc_reads, disc_osl_var. Qed.
Theorem C22_reads_oml_fixlen : reads_consistent oml_fix_call.
Proof. apply disc_reads, disc_oml_fix. Qed.
Theorem C22_reads_oml_varlen_partial : reads_consistent oml_var_call0.
Proof. apply disc_reads, disc_oml_var0. Qed.

(** The reading functions of the code are such programs: a validated attempt of
    CheckKeyRange + Read, or of SearchChild, returns what the node functions of the other
    models return on the node the page holds at the check. *)
Theorem C22_read_fixlen : forall C s0 p r0 c x key n, C = osl_fix_call \/ C = oml_fix_call ->
  reach C s0 -> s_life s0 p = Shared -> rd_load s0 p (gf_read key) r0 ->
  rw_steps (s0, r0) c -> validated c x -> s_mem (fst c) p = ffields n ->
  x = let? here := (if fn_removed n then Some false else fx_comphigh n key) in
      if here : bool then let? r := fx_read n key in Some (inr r) else Some (inl (fn_next n)).
Proof.
  intros C s0 p r0 c x key n HC Hr Hl Hld Hs Hv Hn.
  assert (HR : reads_consistent C) by (destruct HC; subst; [apply C22_reads_osl_fixlen|apply C22_reads_oml_fixlen]).
  destruct (HR _ _ _ _ _ _ _ Hr Hl Hld Hs Hv) as [-> _]. rewrite Hn. apply rrun_gf_read.
Qed.

Theorem C22_read_varlen : forall C s0 p r0 c x key n, C = osl_var_call \/ C = oml_var_call0 ->
  reach C s0 -> s_life s0 p = Shared -> rd_load s0 p (gv_read key) r0 ->
  rw_steps (s0, r0) c -> validated c x -> s_mem (fst c) p = vfields n ->
  x = let? here := (if vn_removed n then Some false else vx_comphigh n key) in
      if here : bool then let? r := vx_read n key in Some (inr r) else Some (inl (vn_next n)).
Proof.
  intros C s0 p r0 c x key n HC Hr Hl Hld Hs Hv Hn.
  assert (HR : reads_consistent C) by (destruct HC; subst; [apply C22_reads_osl_varlen|apply C22_reads_oml_varlen_partial]).
  destruct (HR _ _ _ _ _ _ _ Hr Hl Hld Hs Hv) as [-> _]. rewrite Hn. apply rrun_gv_read.
Qed.

Theorem C22_child_fixlen : forall s0 p r0 c x key n,
  reach oml_fix_call s0 -> s_life s0 p = Shared -> rd_load s0 p (gf_child key) r0 ->
  rw_steps (s0, r0) c -> validated c x -> s_mem (fst c) p = ffields n ->
  x = let? here := (if fn_removed n then Some false else fx_comphigh n key) in
      if here : bool then
        let? (_, pos) := fx_search n key in let? a := fx_child n pos in Some (Some a)
      else Some None.
Proof.
  intros s0 p r0 c x key n Hr Hl Hld Hs Hv Hn.
  destruct (C22_reads_oml_fixlen _ _ _ _ _ _ _ Hr Hl Hld Hs Hv) as [-> _].
  rewrite Hn. apply rrun_gf_child.
Qed.

(** ** OML, variable-length layout: Merge writes before it upgrades its latch *)

(** A run of writer steps. *)
Inductive wr_steps : st -> st -> Prop :=
| ws_refl s : wr_steps s s
| ws_trans s1 s2 s3 : wr_step s1 s2 -> wr_steps s2 s3 -> wr_steps s1 s3.

Lemma reach_steps C s s' : reach C s -> wr_steps s s' -> reach C s'.
Proof. intros Hr Hs. induction Hs; [assumption|]. apply IHHs. eapply reach_step; eauto. Qed.

(** Nobody interferes: the whole program runs on one state. *)
Lemma run_alone {R} s p ver (q : rp R) :
  rw_steps (s, Rdr p ver q) (s, Rdr p ver (Ret (rrun q (s_mem s p)))).
Proof.
  induction q as [a|f k IH]; [constructor|].
  eapply rw_trans; [apply rw_reader|]. apply IH.
Qed.

(** The offset and the length of the highest key, in the order GetHighKey reads them. *)
Definition high_fields : rp (val * val) :=
  Get HHighOff (fun o => Get HHighLen (fun l => Ret (o, l))).

(** Two pages with nodes [m1] and [m2]; thread 0 has called Merge, which is about to write
    [o] and [l] as the offset and length of the highest key. *)
Definition merge_prog (o l : nat) : list act :=
  ALockSIX 1 :: ALockSIX 2 ::
  (AWr 1 HHighOff (VN o) :: AWr 1 HHighLen (VN l) ::
   up_unlock 1 [(HCount, VN 2); (HDeleted, VN 0)] ++ up_unlock 2 [(HRemoved, VB true)]).

Definition two_pages (m1 m2 : fields) (o l : nat) : st :=
  St (fun p => if Nat.eqb p 1 then m1 else m2) (fun _ => Latch 0 OFree 0) (fun _ => Shared)
     (fun t => match t with 0 => merge_prog o l | _ => [] end).

Lemma two_pages_initial m1 m2 o l : initial oml_var_call (two_pages m1 m2 o l).
Proof.
  split; [reflexivity|]. split; [discriminate|].
  intros [|t]; [|constructor]. simpl. unfold merge_prog.
  apply (calls_cons _ [ALockSIX 1]); [do 2 constructor; constructor|].
  apply (calls_cons _ [ALockSIX 2]); [do 2 constructor; constructor|].
  match goal with |- calls _ ?x => rewrite <- (app_nil_r x) end.
  apply calls_cons; [apply mv_merge|constructor].
Qed.

(** Deterministic execution of thread 0. *)
Fixpoint run0 (n : nat) (s : st) : option st :=
  match n with
  | 0 => Some s
  | S n' =>
      match s_prog s 0 with
      | [] => None
      | a :: rest =>
          match act_step 0 a s with
          | Some s1 => run0 n' (St (s_mem s1) (s_latch s1) (s_life s1) (upd (s_prog s1) 0 rest))
          | None => None
          end
      end
  end.

Lemma run0_steps n : forall s s', run0 n s = Some s' -> wr_steps s s'.
Proof.
  induction n as [|n IH]; intros s s' H; simpl in H; [injection H as <-; constructor|].
  destruct (s_prog s 0) as [|a rest] eqn:E; [discriminate|].
  destruct (act_step 0 a s) as [s1|] eqn:E1; [|discriminate].
  eapply ws_trans; [|eapply IH; exact H].
  exists 0, a, rest, s1. auto.
Qed.

(** A reachable step of Merge changes the header of a page that others can reach while the
    thread holds only the shared-with-intent-exclusive latch. *)
Theorem C35_under_x_oml_varlen_refuted : exists s t s' p f,
  reach oml_var_call s /\ thr_step t s s' /\ s_life s p = Shared /\
  s_mem s' p f <> s_mem s p f /\ l_own (s_latch s p) = OSIX t.
Proof.
  set (m := fun _ : fld => VN 0).
  destruct (run0 2 (two_pages m m 7 3)) as [s2|] eqn:E2; [|discriminate E2].
  assert (Hr : reach oml_var_call s2).
  { eapply reach_steps; [apply reach_init, (two_pages_initial m m 7 3)|].
    eapply run0_steps; exact E2. }
  exists s2, 0. cbv in E2. injection E2 as <-.
  do 3 eexists. split; [exact Hr|]. split; [|split; [|split]].
  - do 3 eexists. split; [reflexivity|]. split; [reflexivity|]. reflexivity.
  - instantiate (1 := 1). reflexivity.
  - instantiate (1 := HHighOff). simpl. discriminate.
  - reflexivity.
Qed.

(** All states of an execution after [s]. *)
Lemma rw_wr {R} (c c' : st * rdr R) : rw_steps c c' -> wr_steps (fst c) (fst c').
Proof.
  induction 1 as [|c c1 c2 H _ IH]; [constructor|].
  destruct (rw_fst _ _ H) as [E|Hw]; [rewrite <- E; exact IH|]. eapply ws_trans; eauto.
Qed.

(** A reader that loads the offset before, and the length after Merge has written both
    passes its version check; no state of the page, in that interval, has had this offset and
    this length. *)
Theorem C22_reads_oml_varlen_refuted : exists s0 p r0 c x,
  reach oml_var_call s0 /\ s_life s0 p = Shared /\ rd_load s0 p high_fields r0 /\
  rw_steps (s0, r0) c /\ validated c x /\
  forall c', rw_steps (s0, r0) c' -> x <> rrun high_fields (s_mem (fst c') p).
Proof.
  set (m := fun _ : fld => VN 0).
  destruct (run0 2 (two_pages m m 7 3)) as [s2|] eqn:E2; [|discriminate E2].
  destruct (run0 4 (two_pages m m 7 3)) as [s4|] eqn:E4; [|discriminate E4].
  assert (Hr : reach oml_var_call s2).
  { eapply reach_steps; [apply reach_init, (two_pages_initial m m 7 3)|].
    eapply run0_steps; exact E2. }
  assert (H24 : run0 2 s2 = Some s4).
  { cbv in E2. injection E2 as <-. exact E4. }
  assert (Hinv : forall s, wr_steps s2 s ->
    (forall u, u <> 0 -> s_prog s u = []) /\
    (s_prog s 0 = skipn 2 (merge_prog 7 3) /\ s_mem s 1 HHighLen = VN 0 \/
     s_mem s 1 HHighOff = VN 7 /\
     forall a v, In a (s_prog s 0) -> a <> AWr 1 HHighOff v)).
  { intros s Hs. remember s2 as z eqn:Ez.
    assert (Hz : (forall u, u <> 0 -> s_prog z u = []) /\
      (s_prog z 0 = skipn 2 (merge_prog 7 3) /\ s_mem z 1 HHighLen = VN 0 \/
       s_mem z 1 HHighOff = VN 7 /\
       forall a v, In a (s_prog z 0) -> a <> AWr 1 HHighOff v)).
    { subst z. cbv in E2. injection E2 as <-. split.
      - intros [|u] Hu; [congruence|reflexivity].
      - left. split; reflexivity. }
    clear Ez Hr H24 E2 E4. induction Hs as [s|s1 s2' s3 Hw Hs IH]; [exact Hz|].
    apply IH. clear IH Hs. destruct Hz as [Hn Hz].
    destruct Hw as (t & a & rest & s' & Hp & Ha & ->).
    assert (t = 0).
    { destruct (Nat.eq_dec t 0); [assumption|]. rewrite Hn in Hp by assumption. discriminate. }
    subst t. cbn [s_prog s_mem].
    assert (Hpr : s_prog s' = s_prog s1)
      by (destruct (act_step_cases _ _ _ _ Ha) as
          [(?&_&_&->)|[(?&_&_&->)|[(?&_&_&->)|[(?&?&?&_&_&->)|(?&_&_&_&_&_&->)]]]]; reflexivity).
    split.
    { intros u Hu. rewrite upd_neq by congruence. rewrite Hpr. auto. }
    right. rewrite upd_eq.
    destruct Hz as [[Hz1 Hz2]|[Hz1 Hz2]].
    - rewrite Hz1 in Hp. cbn [merge_prog skipn] in Hp. injection Hp as <- <-.
      unfold act_step in Ha. cbn [page_of] in Ha.
      destruct (s_life s1 1); try discriminate Ha; injection Ha as <-; (split; [reflexivity|]);
        intros a v Hin; cbn in Hin;
        repeat match goal with H : _ \/ _ |- _ => destruct H as [H|H] end;
        subst; try discriminate; contradiction.
    - rewrite Hp in Hz2. split.
      + destruct (act_step_cases _ _ _ _ Ha) as
          [(?&_&_&->)|[(?&_&_&->)|[(?&_&_&->)|[(q&g&v&->&_&->)|(?&_&_&_&_&_&->)]]]]; auto.
        cbn [s_mem]. destruct (upd_case (s_mem s1) q (fupd (s_mem s1 q) g v) 1) as [[-> ->]|[_ ->]]; auto.
        unfold fupd. destruct g; simpl; auto.
        exfalso. exact (Hz2 _ v (or_introl eq_refl) eq_refl).
      + intros b v Hin. apply Hz2. now right. }
  exists s2, 1, (Rdr 1 0 high_fields), (s4, Rdr 1 0 (Ret (VN 0, VN 3))), (VN 0, VN 3).
  split; [exact Hr|].
  assert (E2' := E2). assert (E4' := E4). cbv in E2'. injection E2' as E2'. cbv in E4'. injection E4' as E4'.
  split; [subst s2; reflexivity|]. split; [subst s2; split; [intros t; discriminate|reflexivity]|].
  split; [|split].
  - eapply rw_trans.
    { unfold high_fields. apply rw_reader. }
    assert (Hm : s_mem s2 1 HHighOff = VN 0) by (subst s2; reflexivity). rewrite Hm.
    assert (Hw : forall (r : rdr (val * val)) s s', wr_steps s s' -> forall c, rw_steps (s', r) c -> rw_steps (s, r) c).
    { intros r s s' Hw. induction Hw as [|a b c Hab Hbc IH]; auto.
      intros c' Hc'. eapply rw_trans; [apply rw_writer; exact Hab|]. auto. }
    eapply Hw; [eapply run0_steps; exact H24|].
    eapply rw_trans; [apply rw_reader|].
    assert (Hm4 : s_mem s4 1 HHighLen = VN 3) by (subst s4; reflexivity). rewrite Hm4.
    apply rw_refl.
  - subst s4. split; [reflexivity|]. split; [reflexivity|]. intros t. discriminate.
  - intros c' Hc'. destruct (Hinv _ (rw_wr _ _ Hc')) as [_ [[_ H1]|[H1 _]]]; simpl; rewrite H1;
      intros Q; discriminate Q.
Qed.

End Any.

(** ** The same with the bytes of real nodes *)

Definition is_some {A} (o : option A) : bool := match o with Some _ => true | None => false end.
Lemma is_some_ex {A} (o : option A) : is_some o = true -> exists x, o = Some x.
Proof. destruct o; [eauto|discriminate]. Qed.

Section Garbage.
Local Existing Instance mvtiny.

(** Nodes built by the node functions: records written into a leaf, which is split twice. *)
Definition put (n : option vnode) (k : nat) : option vnode :=
  let? n := n in let? (_, n') := vx_write n k (10 * k) in Some n'.
Definition three_leaves : option (vnode * vnode * vnode) :=
  let? n0 := fold_left put [1; 2; 3; 4] (Some (vx_new false)) in
  let? (a, b) := vx_split true n0 2 (vx_new false) in
  let? b' := fold_left put [5; 6] (Some b) in
  let? (c, d) := vx_split true b' 3 (vx_new false) in Some (a, c, d).

(** While Merge is between its header assignments and UpgradeToX, a reader looking for a
    record of the left page takes payload bytes for the highest key and passes its check.
    ([None]: the bytes are not those of a key.  Before and after the merge the record is
    found.) *)
Theorem C22_oml_varlen_garbage_refuted : exists nl nr mrg key v s r c,
  option_map (fun x => fst x) three_leaves = Some (nl, nr) /\
  vx_merge_into true nl nr = Some mrg /\ vn_next nl = Some 2 /\
  vx_read nl key = Some (Some v) /\ vx_read mrg key = Some (Some v) /\
  wr_steps (two_pages (vfields nl) (vfields nr) (vn_hoff mrg) (vn_hlen mrg)) s /\
  rd_load s 1 (gv_read key) r /\ rw_steps (s, r) c /\ validated c None.
Proof.
  assert (E3 : exists x, three_leaves = Some x) by (apply is_some_ex; vm_compute; reflexivity).
  destruct E3 as [[[nl nr] d] E3].
  assert (Em : exists m, vx_merge_into true nl nr = Some m).
  { assert (Q : match three_leaves with
                | Some (x, y, _) => is_some (vx_merge_into true x y) | None => false end = true)
      by (vm_compute; reflexivity).
    rewrite E3 in Q. now apply is_some_ex. }
  destruct Em as [mrg Em].
  assert (Hm : vn_hoff mrg = 159 /\ vn_hlen mrg = 1 /\
               vx_read mrg 1 = Some (Some 10)).
  { assert (Q : match three_leaves with
                | Some (x, y, _) =>
                    option_map (fun m => (vn_hoff m, vn_hlen m, vx_read m 1)) (vx_merge_into true x y)
                | None => None end = Some (159, 1, Some (Some 10))) by (vm_compute; reflexivity).
    rewrite E3, Em in Q. simpl in Q. injection Q as Q1 Q2 Q3. auto. }
  assert (Hl : vx_read nl 1 = Some (Some 10) /\ vn_next nl = Some 2).
  { assert (Q : option_map (fun '(x, _, _) => (vx_read x 1, vn_next x)) three_leaves
                = Some (Some (Some 10), Some 2)) by (vm_compute; reflexivity).
    rewrite E3 in Q. simpl in Q. injection Q as Q1 Q2. auto. }
  destruct Hm as (Ho & Hlen & Hrm). destruct Hl as [Hrl Hnx].
  destruct (run0 4 (two_pages (vfields nl) (vfields nr) (vn_hoff mrg) (vn_hlen mrg)))
    as [s|] eqn:Er; [|discriminate Er].
  exists nl, nr, mrg, 1, 10, s, (Rdr 1 0 (@gv_read mvtiny 1)), (s, Rdr 1 0 (Ret None)).
  assert (Hs : s_latch s 1 = Latch 0 (OSIX 0) 0 /\
    s_mem s 1 = fupd (fupd (vfields nl) HHighOff (VN 159)) HHighLen (VN 1)).
  { rewrite Ho, Hlen in Er. cbn in Er. injection Er as <-. split; reflexivity. }
  destruct Hs as [Hs1 Hs2].
  assert (Hg : rrun (@gv_read mvtiny 1) (s_mem s 1) = None).
  { rewrite Hs2.
    assert (Q : option_map (fun '(x, _, _) =>
        rrun (@gv_read mvtiny 1) (fupd (fupd (vfields x) HHighOff (VN 159)) HHighLen (VN 1))) three_leaves
        = Some None) by (vm_compute; reflexivity).
    rewrite E3 in Q. simpl in Q. injection Q as Q. exact Q. }
  split; [rewrite E3; reflexivity|]. split; [exact Em|]. split; [exact Hnx|].
  split; [exact Hrl|]. split; [exact Hrm|].
  split; [eapply run0_steps; exact Er|].
  split; [unfold rd_load, no_x; rewrite Hs1; split; [intros t; discriminate|reflexivity]|].
  split; [rewrite <- Hg; apply run_alone|].
  split; [reflexivity|]. simpl. unfold no_x. rewrite Hs1. split; [reflexivity|].
  intros t. discriminate.
Qed.
End Garbage.

(** ** The hypotheses of the positive theorems are met *)

Section Example.
Local Existing Instance tiny.

Definition leaf12 : option fnode :=
  let? (_, n1) := fx_write (fx_set_paylen (fx_new false) 8) 1 10 in
  let? (_, n2) := fx_write n1 2 20 in Some n2.

(** A page with the records 1 and 2; thread 0 overwrites a payload byte of it (Update), then
    takes SIX; thread 1 does the same later. *)
Definition ex_state (n : fnode) : st :=
  St (fun _ => ffields n) (fun _ => Latch 5 OFree 0) (fun _ => Shared)
     (fun t => match t with
               | 0 => (ATryX 1 5 :: ws 1 [(Byte 152, VC CUndef)] ++ [AUnlockX 1]) ++ [ALockSIX 1]
               | 1 => ALockSIX 2 :: up_unlock 2 [(HCount, VN 1)]
               | _ => [] end).

Lemma ex_initial n : initial osl_fix_call (ex_state n).
Proof.
  split; [reflexivity|]. split; [discriminate|].
  intros [|[|t]]; simpl s_prog; [| |constructor].
  - apply (calls_cons _ (ATryX 1 5 :: ws 1 [(Byte 152, VC CUndef)] ++ [AUnlockX 1])); [apply of_update|].
    apply (calls_cons _ [ALockSIX 1]); [|constructor].
    constructor. constructor.
  - apply (calls_cons _ [ALockSIX 2]); [constructor; constructor|].
    apply (calls_cons _ (up_unlock 2 [(HCount, VN 1)])); [apply of_write|constructor].
Qed.

(** The reader finds record 2 while a writer works on another page and takes SIX there; the
    check succeeds and the result is the one of the node function. *)
Example ex_validated : exists n c,
  leaf12 = Some n /\ reach osl_fix_call (ex_state n) /\
  rd_load (ex_state n) 1 (@gf_read tiny 2) (Rdr 1 5 (@gf_read tiny 2)) /\
  rw_steps (ex_state n, Rdr 1 5 (@gf_read tiny 2)) c /\ ~ s_prog (fst c) 1 = s_prog (ex_state n) 1 /\
  validated c (Some (inr (Some 20))).
Proof.
  assert (En : exists n, leaf12 = Some n) by (apply is_some_ex; vm_compute; reflexivity).
  destruct En as [n En].
  assert (Hg : rrun (@gf_read tiny 2) (ffields n) = Some (inr (Some 20))).
  { assert (Q : option_map (fun x => rrun (@gf_read tiny 2) (ffields x)) leaf12
                = Some (Some (inr (Some 20)))) by (vm_compute; reflexivity).
    rewrite En in Q. simpl in Q. now injection Q. }
  set (s1 := St (fun _ => ffields n) (upd (fun _ => Latch 5 OFree 0) 2 (Latch 5 (OSIX 1) 0))
                (fun _ => Shared)
                (upd (s_prog (ex_state n)) 1 (up_unlock 2 [(HCount, VN 1)]))).
  exists n, (s1, Rdr 1 5 (Ret (Some (inr (Some 20))))).
  split; [exact En|]. split; [apply reach_init, ex_initial|].
  split; [split; [intros t; discriminate|reflexivity]|].
  split; [|split].
  - eapply rw_trans.
    + apply rw_writer. exists 1, (ALockSIX 2), (up_unlock 2 [(HCount, VN 1)]),
        (St (fun _ => ffields n) (upd (fun _ => Latch 5 OFree 0) 2 (Latch 5 (OSIX 1) 0))
            (fun _ => Shared) (s_prog (ex_state n))).
      split; [reflexivity|]. split; reflexivity.
    + fold s1. rewrite <- Hg. change (ffields n) with (s_mem s1 1). apply run_alone.
  - simpl. discriminate.
  - split; [reflexivity|]. split; [reflexivity|]. intros t. discriminate.
Qed.

(** A check that fails: after the Update the version has moved on. *)
Example ex_refused : exists n s,
  leaf12 = Some n /\ wr_steps (ex_state n) s /\ l_ver (s_latch s 1) <> 5.
Proof.
  assert (En : exists n, leaf12 = Some n) by (apply is_some_ex; vm_compute; reflexivity).
  destruct En as [n En].
  destruct (run0 3 (ex_state n)) as [s|] eqn:E; [|discriminate E].
  exists n, s. split; [exact En|]. split; [eapply run0_steps; exact E|].
  cbn in E. injection E as <-. simpl. discriminate.
Qed.
End Example.

Print Assumptions C35_x_is_alone.
Print Assumptions C35_try_same_version.
Print Assumptions C35_under_x_osl_fixlen.
Print Assumptions C35_under_x_osl_varlen.
Print Assumptions C35_under_x_oml_fixlen.
Print Assumptions C35_under_x_oml_varlen_partial.
Print Assumptions C35_under_x_oml_varlen_refuted.
Print Assumptions C22_reads_osl_fixlen.
Print Assumptions C22_reads_osl_varlen.
Print Assumptions C22_reads_oml_fixlen.
Print Assumptions C22_reads_oml_varlen_partial.
Print Assumptions C22_reads_oml_varlen_refuted.
Print Assumptions C22_read_fixlen.
Print Assumptions C22_read_varlen.
Print Assumptions C22_child_fixlen.
Print Assumptions C22_oml_varlen_garbage_refuted.
