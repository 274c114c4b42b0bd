(** An executable form of the steps of CScanModel.v, for witnesses.  Proof-side only. *)
From Coq Require Import List Arith Bool Lia.
From Verif Require Import Params Mem Common Spec ConcSpec ScanSpec SLIface BaseIface IterModel
  TreeState ConcModel CScanModel.
Import ListNotations.

Section CScanRun.
Context {P : Params} {N : SLOps P} (osl : bool) (fx : fixes).
#[local] Existing Instance base_of_sl.

(** The pages a step of [t] may change. *)
Definition tpages (t : tid) (s : cfg) : list addr :=
  match th s t with
  | PDesc c a _ =>
      match ch s a with
      | Some n => if nd_inner n then []
                  else match covers n (call_key c) with
                       | Some true => match leaf_op n c with Some (Fail _) => [] | _ => [a] end
                       | _ => []
                       end
      | None => []
      end
  | PSplit _ a _ => [a; cfr s]
  | PRetry _ _ _ x _ _ => [x]
  | PComp _ _ x _ _ sep =>
      match ch s x with
      | Some n => match covers n sep with Some true => [x] | _ => [] end
      | None => []
      end
  | PCompSplit _ _ p _ _ => [p; cfr s]
  | PCompIns _ _ _ _ x _ _ _ => [x]
  | PTrySt _ _ _ _ _ => [cfr s]
  | PMergeAt _ _ x _ _ _ => [x]
  | PMrg1 _ l _ _ => [l]
  | PMrg2 _ r _ _ => [r]
  | PShrL _ p => [p]
  | _ => []
  end.

Lemma supd_out {A} (f : tid -> A) a b x : a <> b -> supd f b x a = f a.
Proof. intros H. unfold supd. now rewrite (proj2 (Nat.eqb_neq a b)). Qed.

Lemma upd_out (h : addr -> option nd) a b o : a <> b -> upd h b o a = h a.
Proof. intros H. unfold upd. now rewrite (proj2 (Nat.eqb_neq a b)). Qed.

Lemma cstep_pages t s l c a : cstep osl fx t s = SOk l c -> ~ In a (tpages t s) -> ch c a = ch s a.
Proof.
  unfold cstep, sbind, tpages. intros Hs Ha.
  repeat (match type of Hs with
          | context [match ?x with _ => _ end] => destruct x eqn:?
          end; try discriminate);
    injection Hs as <- <-; cbn in *; try reflexivity;
    rewrite ?upd_out by (intros ->; tauto); auto.
Qed.

Definition memb (a : addr) (l : list addr) : bool := existsb (Nat.eqb a) l.
Lemma memb_in a l : memb a l = true <-> In a l.
Proof.
  unfold memb. rewrite existsb_exists. split.
  - intros (x & Hx & E). apply Nat.eqb_eq in E. now subst.
  - intros H. exists a. split; auto. apply Nat.eqb_refl.
Qed.

Definition free_for (p : spc) (l : list addr) : bool :=
  match p with SHold _ _ b _ _ => negb (memb b l) | _ => true end.

Definition chkb (vs : addr -> nat) (p : spc) (chk : bool) : bool :=
  match p with OLoop _ _ a ver _ _ _ _ _ => negb chk || Nat.eqb (vs a) ver | _ => true end.

(** [us] are the scanners that ever move. *)
Definition sexec (us : list tid) (v : mover) (s : scfg) : option scfg :=
  match v with
  | Caller t =>
      match cstep osl fx t (base s) with
      | SOk l c =>
          let w := tpages t (base s) in
          if forallb (fun u => free_for (sth s u) w) us then
            Some (SCfg (emit c l) (fun a => if memb a w then S (vn s a) else vn s a)
                       (sth s) (sq s) (lg s ++ [Ev l]))
          else None
      | _ => None
      end
  | Scanner u chk =>
      if chkb (vn s) (sth s u) chk then
        match scan_step osl u chk (base s) (vn s) (sth s u) (sq s u) with
        | TOk p m =>
            Some (SCfg (base s) (vn s) (supd (sth s) u p)
              (match sth s u with SIdle => supd (sq s) u (tl (sq s u)) | _ => sq s end)
              (add_mark (lg s) m))
        | _ => None
        end
      else None
  end.

Definition others (us : list tid) (s : scfg) : Prop :=
  forall u, ~ In u us -> sth s u = SIdle /\ sq s u = [].

Lemma sexec_step us v s s' : others us s -> sexec us v s = Some s' ->
  sstep osl fx v s s' /\ others us s'.
Proof.
  intros Ho. destruct v as [t|u chk]; cbn [sexec].
  - destruct (cstep osl fx t (base s)) as [l c| |] eqn:E; try discriminate.
    destruct (forallb _ us) eqn:Ef; [|discriminate]. intros [= <-]. split; [|exact Ho].
    rewrite forallb_forall in Ef. constructor; auto.
    + intros u a Hl. eapply cstep_pages; eauto. intros Ha.
      destruct (in_dec Nat.eq_dec u us) as [Hu|Hu].
      * specialize (Ef u Hu). destruct (sth s u); cbn in Hl, Ef; try contradiction. subst.
        rewrite (proj2 (memb_in _ _) Ha) in Ef. discriminate.
      * destruct (Ho u Hu) as (Q & _). rewrite Q in Hl. exact Hl.
    + intros a. destruct (memb a _); lia.
    + intros a Ha. eapply cstep_pages; eauto. intros Hin. apply memb_in in Hin. rewrite Hin in Ha. lia.
  - destruct (chkb _ _ _) eqn:Ec; [|discriminate].
    destruct (scan_step _ _ _ _ _ _ _) as [p m| |] eqn:E; try discriminate. intros [= <-]. split.
    + constructor; auto. destruct (sth s u); cbn in *; auto. intros ->. now apply Nat.eqb_eq.
    + intros u' Hu'. cbn [sth sq]. destruct (Nat.eq_dec u' u) as [-> |Hne].
      * exfalso. destruct (Ho u Hu') as (Q1 & Q2). rewrite Q1, Q2 in E. discriminate.
      * destruct (Ho u' Hu') as (Q1 & Q2). split.
        -- now rewrite supd_out.
        -- destruct (sth s u); auto. now rewrite supd_out.
Qed.

Context (us : list tid) (ok : mover -> scfg -> bool) (A : mover -> scfg -> Prop).
Hypothesis Hok : forall v s, ok v s = true -> A v s.

Fixpoint srun (s : scfg) (l : list mover) : option scfg :=
  match l with
  | [] => Some s
  | v :: l' => if ok v s then match sexec us v s with Some s' => srun s' l' | None => None end else None
  end.

Lemma srun_reach prog scans l : forall s s', sreach osl fx A prog scans s -> others us s ->
  srun s l = Some s' -> sreach osl fx A prog scans s'.
Proof.
  induction l as [|v l IH]; intros s s' Hr Ho; cbn [srun].
  - now intros [= <-].
  - destruct (ok v s) eqn:Ek; [|discriminate].
    destruct (sexec us v s) as [s1|] eqn:E; [|discriminate].
    destruct (sexec_step us v s s1 Ho E) as (H1 & H2). apply IH; auto.
    eapply sr_step; eauto.
Qed.

End CScanRun.
