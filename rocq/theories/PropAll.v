(** C31: all eight combinations of locking variant and node layout agree.

    The two layouts are built for different key types (a fixed-size type and a
    variable-length one), so the comparison is along an order embedding of keys [fk] and a
    map of payloads [fv]; with [fk] and [fv] identities and equal sizes this is plain
    equality of results. *)
From Coq Require Import List Arith Bool Lia.
From Verif Require Import Params Mem Common Spec NodeAbs FixModel FixProofs VarModel VarProofs SLIface BaseIface
  FixSL VarSL MLIface FixML VarML TreeState SLModel MLModel SLProofs SLApi MLProofs MLApi Inst
  PropSLFix PropSLVar PropMLFix PropMLVar.
Import ListNotations.

Section Embed.
Context {P1 P2 : Params} (fk : @K P1 -> @K P2) (fv : @V P1 -> @V P2).

Definition emb_call (c : @call P1) : @call P2 :=
  match c with
  | CRead k => CRead (fk k)
  | CWrite k v => CWrite (fk k) (fv v)
  | CInsert k v => CInsert (fk k) (fv v)
  | CUpdate k v => CUpdate (fk k) (fv v)
  | CDelete k => CDelete (fk k)
  end.
Definition emb_event (e : @event P1) : @event P2 :=
  match e with ECall c => ECall (emb_call c) | EGC => EGC end.
Definition emb_ret (r : @ret P1) : @ret P2 :=
  match r with
  | RPayload o => RPayload (option_map fv o)
  | RSuccess => RSuccess
  | RKeyExist => RKeyExist
  | RKeyNotExist => RKeyNotExist
  end.

Hypothesis fk_ord : forall a b, ltb (fk a) (fk b) = ltb a b.

Lemma emb_keqb a b : keqb (fk a) (fk b) = keqb a b.
Proof. unfold keqb. now rewrite !fk_ord. Qed.

Definition emb_map (m1 : @amap P1) (m2 : @amap P2) : Prop := forall k, m2 (fk k) = option_map fv (m1 k).

Lemma emb_set m1 m2 k o : emb_map m1 m2 -> emb_map (amap_set m1 k o) (amap_set m2 (fk k) (option_map fv o)).
Proof. intros H k'. unfold amap_set. rewrite emb_keqb. destruct (keqb k' k); auto. Qed.

Lemma emb_step m1 m2 c : emb_map m1 m2 ->
  emb_map (fst (spec_step m1 c)) (fst (spec_step m2 (emb_call c))) /\
  snd (spec_step m2 (emb_call c)) = emb_ret (snd (spec_step m1 c)).
Proof.
  intros H. destruct c as [k|k v|k v|k v|k]; cbn [emb_call spec_step]; rewrite ?H;
    try (destruct (m1 k); cbn [option_map]); cbn [fst snd emb_ret option_map]; split; auto;
    first [exact (emb_set _ _ _ (Some v) H) | exact (emb_set _ _ _ None H)].
Qed.

Lemma emb_run cs : forall m1 m2, emb_map m1 m2 ->
  snd (spec_run m2 (map emb_call cs)) = map emb_ret (snd (spec_run m1 cs)).
Proof.
  induction cs as [|c cs IH]; intros m1 m2 H; [reflexivity|]. cbn [map spec_run].
  destruct (emb_step m1 m2 c H) as [A B].
  destruct (spec_step m1 c) as [m1' r1], (spec_step m2 (emb_call c)) as [m2' r2]. cbn [fst snd] in *.
  specialize (IH m1' m2' A).
  destruct (spec_run m1' cs), (spec_run m2' (map emb_call cs)). cbn [fst snd map] in *. congruence.
Qed.

Lemma emb_calls es : calls_of (map emb_event es) = map emb_call (calls_of es).
Proof. induction es as [|[c|] es IH]; cbn; congruence. Qed.
End Embed.

(** C31.  [rs] are the results of the fixed-length PSL; all other combinations return the
    same, none gets stuck. *)
Theorem C31_all_variants_agree :
  forall (P1 P2 : Params) (fk : @K P1 -> @K P2) (fv : @V P1 -> @V P2)
    (O1 : OrdLaws P1) (F1 : FixSizes P1) (G1 : FixGood P1) (H1 : FixMLGood P1)
    (O2 : OrdLaws P2) (F2 : VarSizes P2) (G2 : VarGood P2) (H2 : VarMLGood P2),
  (forall a b, ltb (fk a) (fk b) = ltb a b) -> (forall k, 0 < klen (fk k) <= maxkey) ->
  forall (es : list (@event P1)) fuel, length es + 3 <= fuel ->
  let es2 := map (emb_event fk fv) es in
  exists rs,
    (forall opt, exists s, @sl_run P1 (fix_sl_ops opt) opt fuel es (@sl_init P1 (fix_sl_ops opt)) = Ok rs s) /\
    (forall opt, exists s, @ml_run P1 fix_ml_ops opt fuel es (@ml_init P1 fix_ml_ops) = Ok rs s) /\
    (forall opt, exists s, @sl_run P2 (var_sl_ops opt) opt fuel es2 (@sl_init P2 (var_sl_ops opt)) =
                           Ok (map (emb_ret fv) rs) s) /\
    (forall opt, exists s, @ml_run P2 var_ml_ops opt fuel es2 (@ml_init P2 var_ml_ops) =
                           Ok (map (emb_ret fv) rs) s).
Proof.
  intros P1 P2 fk fv O1 F1 G1 H1 O2 F2 G2 H2 Hord Hlen es fuel Hf es2.
  assert (Hl2 : length es2 + 3 <= fuel) by (unfold es2; now rewrite map_length).
  assert (Hk2 : forall c, In c (calls_of es2) -> 0 < klen (call_key c) <= maxkey).
  { intros c Hc. unfold es2 in Hc. rewrite emb_calls in Hc. apply in_map_iff in Hc as (c' & <- & _).
    destruct c'; cbn [emb_call call_key]; apply Hlen. }
  assert (E : snd (spec_run amap_empty (calls_of es2)) =
              map (emb_ret fv) (snd (spec_run amap_empty (calls_of es)))).
  { unfold es2. rewrite emb_calls. apply (emb_run fk fv); auto. intros k. reflexivity. }
  exists (snd (spec_run amap_empty (calls_of es))). rewrite <- E.
  split; [|split; [|split]]; intros opt.
  - exact (C01_single_layer_fixlen_is_a_map P1 O1 F1 G1 opt es fuel Hf).
  - exact (C02_multi_layer_fixlen_is_a_map P1 O1 F1 H1 opt es fuel Hf).
  - exact (C03_single_layer_varlen_is_a_map P2 O2 F2 G2 opt es2 fuel Hk2 Hl2).
  - exact (C04_multi_layer_varlen_is_a_map P2 O2 F2 G2 H2 opt es2 fuel Hk2 Hl2).
Qed.

(** Non-vacuity: 8-byte integers on 160-byte pages against one- to three-byte strings. *)
Example all_variants_demo : forall es : list (@event tiny), exists rs,
  (forall opt, exists s, @sl_run tiny (fix_sl_ops opt) opt (length es + 3) es (@sl_init tiny (fix_sl_ops opt)) = Ok rs s) /\
  (forall opt, exists s, @ml_run mvtiny var_ml_ops opt (length es + 3)
     (map (@emb_event tiny mvtiny (fun k => k) (fun v => v)) es) (@ml_init mvtiny var_ml_ops) =
     Ok (map (@emb_ret tiny mvtiny (fun v => v)) rs) s).
Proof.
  intros es.
  destruct (C31_all_variants_agree tiny mvtiny (fun k => k) (fun v => v) tiny_ord tiny_sizes tiny_good tiny_mlgood
              mvtiny_ord mvtiny_sizes mvtiny_good mvtiny_mlgood (fun a b => eq_refl)) with (es := es) (fuel := length es + 3)
    as (rs & A & _ & _ & B); [|auto|exists rs; auto].
  intros k. cbn. pose proof (Nat.mod_upper_bound k 3). lia.
Qed.

Print Assumptions C31_all_variants_agree.
