(** Histories in which calls do not overlap.  Only Spec.v and ConcSpec.v, and the reading of
    legal extended histories of ConcLin.v, are used. *)
From Coq Require Import List Arith Bool Lia.
From Verif Require Import Params Spec ConcSpec ConcModel ConcLin.
Import ListNotations.

Section SeqHist.
Context {P : Params}.

(** The map after the calls of a history in which calls do not overlap. *)
Definition calls_map (h : list event) : amap :=
  fold_left (fun m e => match e with EInv _ c => fst (spec_step m c) | ERes _ _ => m end) h amap_empty.

(** Every call has returned before the next one begins. *)
Definition pairs (l : list (tid * call * ret)) : list event :=
  flat_map (fun x => [EInv (fst (fst x)) (snd (fst x)); ERes (fst (fst x)) (snd x)]) l.

(** Where the next record of a scan that begins at [lo] and has delivered [acc] is to be looked for. *)
Definition last_bound (lo : bound) (acc : list (K * V)) : bound :=
  match rev acc with [] => lo | (k, _) :: _ => Some (k, false) end.

(** [(k, v)] is the first record of the map [m] above [b], and it is in range. *)
Definition next_record (m : amap) (b hi : bound) (k : K) (v : V) : Prop :=
  above b k /\ below hi k /\ m k = Some v /\ forall k', above b k' -> klt k' k -> m k' = None.

Lemma last_snoc lo acc k v : last_bound lo (acc ++ [(k, v)]) = Some (k, false).
Proof. unfold last_bound. now rewrite rev_app_distr. Qed.

Lemma pairs_snoc l t c r : pairs (l ++ [(t, c, r)]) = pairs l ++ [EInv t c; ERes t r].
Proof. unfold pairs. rewrite flat_map_app. reflexivity. Qed.

Lemma seq_xfin : forall l m f x, (forall t, f t = Idle) -> legal m f x -> erase x = pairs l ->
  fst (xfin m f x) =
  fold_left (fun m e => match e with EInv _ c => fst (spec_step m c) | ERes _ _ => m end) (pairs l) m.
Proof.
  induction l as [|[[t c] r] l IH]; intros m f x Hf Hl He.
  - destruct x as [|[u d|u|u d] x]; cbn in *; try discriminate; auto.
    destruct Hl as (c & Hc & _). rewrite Hf in Hc. discriminate.
  - change (pairs ((t, c, r) :: l)) with (EInv t c :: ERes t r :: pairs l) in *.
    destruct x as [|[u d|u|u d] x]; cbn [erase legal] in *; try discriminate.
    2:{ destruct Hl as (c' & Hc & _). rewrite Hf in Hc. discriminate. }
    injection He as -> -> He. destruct Hl as (_ & Hl). cbn [xfin fold_left].
    destruct x as [|[u d|u|u d] x]; cbn [erase legal] in *; try discriminate.
    2:{ injection He as -> -> _. destruct Hl as (Hl & _). unfold supd in Hl. rewrite Nat.eqb_refl in Hl. discriminate. }
    destruct Hl as (c' & Hc & Hl). unfold supd in Hc at 1. destruct (Nat.eqb_spec u t) as [->|Hu].
    2:{ rewrite Hf in Hc. discriminate. }
    injection Hc as <-. cbn [xfin]. unfold supd at 1. rewrite Nat.eqb_refl.
    destruct x as [|[u d|u|u d] x]; cbn [erase legal] in *; try discriminate.
    { destruct Hl as (c' & Hc & _). exfalso. unfold supd in Hc. destruct (Nat.eqb u t); [discriminate|].
      rewrite Hf in Hc. discriminate. }
    injection He as -> -> He. destruct Hl as (_ & Hl). cbn [xfin]. apply IH; auto.
    intros v. unfold supd. destruct (Nat.eqb v t); auto.
Qed.

Lemma seq_effs tr l : jtrace amap_empty tr -> events tr = pairs l -> effs amap_empty tr = calls_map (pairs l).
Proof.
  intros J E. destruct (jtrace_good amap_empty tr J) as (x & G).
  rewrite <- (g_map _ _ _ G). apply seq_xfin; [reflexivity|apply (g_legal _ _ _ G)|].
  rewrite (g_erase _ _ _ G). exact E.
Qed.

End SeqHist.
