(** [touches] (ReclModel.v) lists every page that a step uses: the step changes no other page
    and no other latch, and what it does does not depend on the others.
    This file is proof-side only. *)
From Coq Require Import List Arith Bool Lia.
From Verif Require Import Params Mem Common Spec ConcSpec ScanSpec SLIface BaseIface IterModel
  TreeState ConcModel ConcLin CScanModel CScanRun ReclModel.
Import ListNotations.

Section ReclFrame.
Context {P : Params} {N : SLOps P} (osl : bool) (fx : fixes).
#[local] Existing Instance base_of_sl.

(** Nothing else is changed. *)
Lemma touches_change t s l c a : cstep osl fx t s = SOk l c -> a < cfr s ->
  ~ In a (call_touches s (th s t)) -> ch c a = ch s a /\ six c a = six s a.
Proof.
  intros Hs Ha Hin. assert (Hf : a <> cfr s) by lia.
  unfold cstep in Hs. destruct (th s t) eqn:E; cbn [call_touches] in Hin; unfold sbind, next_page, first_child in *;
    repeat (match type of Hs with context [match ?x with _ => _ end] => destruct x eqn:? end; try discriminate);
    injection Hs as <- <-; cbn [ch six goto setp own newp rootp opt_list In] in *;
    rewrite ?upd_out, ?supd_out by (intros ->; tauto); auto.
Qed.

(** What the step does does not depend on the page [a] or its latch. *)
Definition same_but (a : addr) (s s2 : cfg) : Prop :=
  croot s2 = croot s /\ cfr s2 = cfr s /\ th s2 = th s /\ pg s2 = pg s /\ tr s2 = tr s /\
  forall b, b <> a -> ch s2 b = ch s b /\ six s2 b = six s b.

Definition same_res (a : addr) (r r2 : sres) : Prop :=
  match r, r2 with
  | SOk l c, SOk l2 c2 => l2 = l /\ same_but a c c2
  | SBlock, SBlock | SUndef, SUndef => True
  | _, _ => False
  end.

Lemma same_pages a s s2 : same_but a s s2 ->
  (forall b, b <> a -> ch s2 b = ch s b) /\ (forall b, b <> a -> six s2 b = six s b).
Proof. intros (_ & _ & _ & _ & _ & H). split; intros b Hb; now apply H. Qed.

Lemma sb_goto a s s2 t p : same_but a s s2 -> same_but a (goto s t p) (goto s2 t p).
Proof. intros (H1 & H2 & H3 & H4 & H5 & H6). unfold same_but, goto. cbn. rewrite H3. auto 10. Qed.
Lemma sb_setp a s s2 x n : same_but a s s2 -> same_but a (setp s x n) (setp s2 x n).
Proof.
  intros (H1 & H2 & H3 & H4 & H5 & H6). unfold same_but, setp. cbn. do 5 (split; [auto|]).
  intros b Hb. unfold upd. destruct (Nat.eqb b x); split; auto; now apply H6.
Qed.
Lemma sb_newp a s s2 n : same_but a s s2 -> same_but a (newp s n) (newp s2 n).
Proof.
  intros (H1 & H2 & H3 & H4 & H5 & H6). unfold same_but, newp. cbn. rewrite H2. do 5 (split; [auto|]).
  intros b Hb. unfold upd. destruct (Nat.eqb b (cfr s)); split; auto; now apply H6.
Qed.
Lemma sb_own a s s2 x o : same_but a s s2 -> same_but a (own s x o) (own s2 x o).
Proof.
  intros (H1 & H2 & H3 & H4 & H5 & H6). unfold same_but, own. cbn. do 5 (split; [auto|]).
  intros b Hb. unfold supd. destruct (Nat.eqb b x); split; auto; now apply H6.
Qed.
Lemma sb_rootp a s s2 x : same_but a s s2 -> same_but a (rootp s x) (rootp s2 x).
Proof. intros (H1 & H2 & H3 & H4 & H5 & H6). unfold same_but, rootp. cbn. auto 10. Qed.

Lemma touches_depend t s s2 a : same_but a s s2 -> ~ In a (call_touches s (th s t)) ->
  same_res a (cstep osl fx t s) (cstep osl fx t s2).
Proof.
  intros Hsb Hin. destruct (same_pages a s s2 Hsb) as (Hc & Hx).
  pose proof Hsb as (H1 & H2 & H3 & H4 & H5 & _).
  assert (Hfree : forall b, b <> a -> free s2 b = free s b) by (intros b Hb; unfold free; now rewrite Hx).
  unfold cstep. rewrite H3. destruct (th s t) eqn:E; cbn [call_touches] in Hin; cbn [In] in Hin;
    rewrite ?H1, ?H2, ?H4, ?Hc by (intros ->; tauto);
    unfold sbind, leaf_blocked, next_page, first_child in *; rewrite ?Hfree by (intros ->; tauto);
    repeat (match goal with |- context [match ?x with _ => _ end] =>
      match x with
      | free s2 _ => rewrite Hfree by (cbn in Hin; intros ->; tauto)
      | ch s2 _ => rewrite Hc by (cbn in Hin; intros ->; tauto)
      | _ => destruct x eqn:?
      end end;
      cbn [opt_list In] in Hin;
      rewrite ?Hfree by (intros ->; tauto); rewrite ?Hc by (intros ->; tauto));
    cbn [same_res]; auto; split; auto;
    repeat (first [apply sb_goto|apply sb_setp|apply sb_own|apply sb_newp|apply sb_rootp]; auto).
  do 5 (split; [auto|]). intros b Hb. split; [now apply Hc|now apply Hx].
Qed.

(** A scan changes nothing at all; what it does depends only on the pages it uses. *)
Lemma touches_scan u chk s s2 vs vs2 p q a : croot s2 = croot s ->
  (forall b, b <> a -> ch s2 b = ch s b) -> (forall b, b <> a -> vs2 b = vs b) ->
  ~ In a (scan_touches s p) ->
  scan_step osl u chk s2 vs2 p q = scan_step osl u chk s vs p q.
Proof.
  intros H1 Hc Hv Hin. destruct p; cbn [scan_step scan_touches] in *; auto.
  - now rewrite H1.
  - cbn [In] in Hin. rewrite Hc by (intros ->; tauto). reflexivity.
  - destruct ie; auto. cbn [In] in Hin. rewrite Hc by (intros ->; tauto). unfold next_page in Hin.
    destruct (ch s a0) as [n|]; auto. destruct (nd_next n) as [b|]; auto. cbn [opt_list In] in Hin.
    rewrite Hc by (intros ->; tauto). reflexivity.
  - cbn [In] in Hin. rewrite Hc, Hv by (intros ->; tauto). reflexivity.
  - cbn [In] in Hin. rewrite Hc by (intros ->; tauto). reflexivity.
  - cbn [In] in Hin. rewrite Hc by (intros ->; tauto). reflexivity.
  - destruct (pos <? e); cbn [orb] in Hin.
    + cbn [In] in Hin. rewrite Hc by (intros ->; tauto). reflexivity.
    + destruct ie; auto. cbn [negb In] in Hin. rewrite Hc by (intros ->; tauto). reflexivity.
Qed.

End ReclFrame.
