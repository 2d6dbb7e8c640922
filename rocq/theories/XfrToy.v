(** A concrete instance used to show that the hypotheses of the transfer
    theorems are met: the two-dimensional vector space over the Ristretto scalar
    field, where the two generators satisfy no relation at all, and proof systems
    whose proofs are the openings themselves. *)
From Coq Require Import List NArith ZArith Bool Lia.
From Verif Require Import Base Field Zp Primality UtilsModel XfrModel XfrSpec.
Import ListNotations.
Local Open Scope Z_scope.

Section Pair.
Context (F : Field).
Add Field Fpp : (f_th F).
Definition pcar : Type := (F * F)%type.
Definition padd (a b : pcar) : pcar := (fadd (fst a) (fst b), fadd (snd a) (snd b)).
Definition popp (a : pcar) : pcar := (fopp (fst a), fopp (snd a)).
Definition pmul (x : F) (a : pcar) : pcar := (fmul x (fst a), fmul x (snd a)).
Ltac pr := intros; unfold padd, popp, pmul; repeat match goal with a : pcar |- _ => destruct a end;
  cbn [fst snd]; f_equal; ring.
Lemma p_assoc a b c : padd a (padd b c) = padd (padd a b) c. Proof. pr. Qed.
Lemma p_comm a b : padd a b = padd b a. Proof. pr. Qed.
Lemma p_0 a : padd (f0, f0) a = a. Proof. pr. Qed.
Lemma p_opp a : padd a (popp a) = (f0, f0). Proof. pr. Qed.
Lemma p_1 a : pmul f1 a = a. Proof. pr. Qed.
Lemma p_smul x y a : pmul x (pmul y a) = pmul (fmul x y) a. Proof. pr. Qed.
Lemma p_addl x y a : pmul (fadd x y) a = padd (pmul x a) (pmul y a). Proof. pr. Qed.
Lemma p_addr x a b : pmul x (padd a b) = padd (pmul x a) (pmul x b). Proof. pr. Qed.
Definition p_dec (a b : pcar) : {a = b} + {a <> b}.
Proof.
  destruct a as [a1 a2], b as [b1 b2].
  destruct (f_dec a1 b1); [destruct (f_dec a2 b2)|]; [left|right|right]; congruence.
Defined.
Definition pair_mod : Mod F :=
  {| mcar := pcar; m0 := (f0, f0) : pcar; madd := padd; mopp := popp; smul := pmul;
     madd_assoc := p_assoc; madd_comm := p_comm; madd_0 := p_0; madd_opp := p_opp;
     smul_1 := p_1; smul_smul := p_smul; smul_addl := p_addl; smul_addr := p_addr;
     m_dec := p_dec |}.
Lemma p_indep (a b : F) : padd (pmul a (f1, f0)) (pmul b (f0, f1)) = (f0, f0) -> a = f0.
Proof.
  unfold padd, pmul. cbn [fst snd]. intros H. apply (f_equal fst) in H. cbn [fst] in H.
  rewrite <- H. ring.
Qed.
End Pair.

Definition toyG : Mod RistrettoFr := pair_mod RistrettoFr.
Definition toy_eqb (a b : toyG) : bool := if m_dec a b then true else false.
Lemma toy_eqb_spec a b : reflect (a = b) (toy_eqb a b).
Proof. unfold toy_eqb. destruct (m_dec a b); constructor; assumption. Qed.

Definition toy : pgroup :=
  {| PF := RistrettoFr; PG := toyG; gB := (f1, f0); gBb := (f0, f1);
     CP := toyG; compress := fun g => g; decompress := fun g => Some g;
     decompress_compress := fun g => eq_refl;
     cp_eqb := toy_eqb; cp_eqb_spec := toy_eqb_spec |}.

(** The two generators are independent: the second disjunct of the soundness
    theorems cannot happen here. *)
Lemma toy_no_relation ab : ~ dlog_relation toy ab.
Proof.
  destruct ab as [a b]. intros [H1 H2]. apply H1. cbn in H2.
  exact (p_indep RistrettoFr a b H2).
Qed.

(** Proofs are openings, verifiers check them. *)
Definition opening_ok (c : toyG) (vr : N * RistrettoFr) : bool :=
  toy_eqb c (pedersen toy (Z.of_N (fst vr)) (snd vr)) && (fst vr <? 2 ^ 32)%N.
Fixpoint all2 {A B} (f : A -> B -> bool) (l : list A) (m : list B) : bool :=
  match l, m with
  | [], [] => true
  | a :: l', b :: m' => f a b && all2 f l' m'
  | _, _ => false
  end.
Definition toy_ranges (batch : list (list (N * RistrettoFr) * list toyG)) : bool :=
  forallb (fun '(p, cs) => all2 opening_ok cs p) batch.
Definition toy_assets (batch : list (list toyG * (RistrettoFr * list RistrettoFr))) : bool :=
  forallb (fun '(cs, p) => all2 (fun c r => toy_eqb c (madd (smul (fst p) (gB toy)) (smul r (gBb toy)) : toyG))
                                cs (snd p)) batch.
(** A mix proof lists amount, type scalar and the two blindings of every record. *)
Definition mixrec : Type := (N * RistrettoFr * RistrettoFr * RistrettoFr).
Definition mix_ok (c : toyG * toyG) (m : mixrec) : bool :=
  let '(a, t, ra, rt) := m in
  toy_eqb (fst c) (pedersen toy (Z.of_N a) ra) &&
  toy_eqb (snd c) (madd (smul t (gB toy)) (smul rt (gBb toy)) : toyG).
Definition mtotal (t : RistrettoFr) (l : list mixrec) : N :=
  fold_right N.add 0%N (map (fun '(a, t', _, _) => if feqb t t' then a else 0%N) l).
Definition mix_balanced (i o : list mixrec) : bool :=
  forallb (fun '(_, t, _, _) => N.eqb (mtotal t i) (mtotal t o)) (i ++ o).
Definition toy_mixes (batch : list (list (toyG * toyG) * list (toyG * toyG) * (list mixrec * list mixrec))) : bool :=
  forallb (fun '(ci, co, (i, o)) => all2 mix_ok ci i && all2 mix_ok co o && mix_balanced i o) batch.

Definition toyO : oracles toy :=
  {| RP := list (N * RistrettoFr); AP := RistrettoFr * list RistrettoFr;
     MP := list mixrec * list mixrec;
     v_ranges := toy_ranges : list (_ * list (CP toy)) -> bool;
     v_assets := toy_assets : list (list (PG toy) * _) -> bool;
     v_mixes := toy_mixes : list (list (CP toy * CP toy) * list (CP toy * CP toy) * _) -> bool;
     v_ranges_nil := eq_refl; v_assets_nil := eq_refl; v_mixes_nil := eq_refl |}.

Definition toy_ext (p : RP toy toyO) (_ : list (CP toy)) : list (Z * PF toy) :=
  map (fun vr : N * RistrettoFr => (Z.of_N (fst vr), snd vr)) p.
Definition toy_aext (p : AP toy toyO) (_ : list (PG toy)) : PF toy * list (PF toy) := p.

Lemma all2_Forall2 {A B} (f : A -> B -> bool) l m : all2 f l m = true -> Forall2 (fun a b => f a b = true) l m.
Proof.
  revert m. induction l as [|a l IH]; intros [|b m] H; cbn in H; try discriminate; constructor.
  - apply andb_prop in H. apply H.
  - apply IH. apply andb_prop in H. apply H.
Qed.

Lemma toy_range_extractor : range_extractor toy toyO toy_ext.
Proof.
  intros batch H rp cs Hin. cbn in H. unfold toy_ranges in H. rewrite forallb_forall in H.
  specialize (H _ Hin). cbn in H. apply all2_Forall2 in H. clear Hin. unfold toy_ext.
  induction H as [|c vr cs rp' Hc _ IH]; cbn; constructor; auto.
  apply andb_prop in Hc. destruct Hc as [H1 H2]. cbn [fst snd].
  apply (reflect_iff _ _ (toy_eqb_spec _ _)) in H1. apply N.ltb_lt in H2. split.
  - cbn [decompress toy]. f_equal. exact H1.
  - split; [apply N2Z.is_nonneg|]. apply N2Z.inj_lt in H2. exact H2.
Qed.

Lemma toy_asset_extractor : asset_extractor toy toyO toy_aext.
Proof.
  intros batch H cs ap Hin. cbn in H. unfold toy_assets in H. rewrite forallb_forall in H.
  specialize (H _ Hin). cbn in H. apply all2_Forall2 in H. unfold toy_aext.
  eapply Forall2_impl; [|exact H]. cbn beta. intros c r Hc.
  apply (reflect_iff _ _ (toy_eqb_spec _ _)) in Hc. exact Hc.
Qed.

(** The honest provers. *)
Definition toy_pr (vs : list (N * PF toy)) : RP toy toyO := vs.
Definition toy_pa (v : PF toy) (_ : list (PG toy)) (rs : list (PF toy)) : AP toy toyO := (v, rs).
Definition toy_pm (i o : list (N * PF toy * PF toy * PF toy)) : res (MP toy toyO) :=
  if mix_balanced i o then Ok (i, o) else Err.

Lemma toy_eqb_refl a : toy_eqb a a = true.
Proof. apply (reflect_iff _ _ (toy_eqb_spec a a)). reflexivity. Qed.

Lemma toy_range_complete : range_complete toy toyO toy_pr.
Proof.
  intros vs Hv _. cbn. unfold toy_ranges. cbn [forallb]. rewrite andb_true_r. unfold toy_pr.
  induction Hv as [|vr vs H _ IH]; cbn; [reflexivity|]. fold (pedersen toy (Z.of_N (fst vr)) (snd vr)).
  unfold opening_ok at 1. apply andb_true_intro. split; [|exact IH].
  apply andb_true_intro. split; [apply toy_eqb_refl|now apply N.ltb_lt].
Qed.

Lemma toy_asset_complete : asset_complete toy toyO toy_pa.
Proof.
  intros v rs cs _. cbn. unfold toy_assets. cbn [forallb]. rewrite andb_true_r. unfold toy_pa, cs. cbn [fst snd].
  clear. induction rs as [|r rs IH]; cbn; [reflexivity|]. apply andb_true_intro. split; [apply toy_eqb_refl|exact IH].
Qed.

Lemma toy_mix_complete : mix_complete toy toyO toy_pm.
Proof.
  intros i o p H. unfold toy_pm in H. destruct (mix_balanced i o) eqn:E; [|discriminate].
  injection H as <-. cbn. unfold toy_mixes. cbn [forallb]. rewrite andb_true_r, E, andb_true_r.
  assert (A : forall l, all2 mix_ok (mix_commitments (E := toy) l) l = true).
  { induction l as [|[[[a t] ra] rt] l IH]; cbn; [reflexivity|].
    unfold mix_ok at 1. cbn [fst snd]. apply andb_true_intro. split; [|exact IH].
    apply andb_true_intro. split; apply toy_eqb_refl. }
  apply andb_true_intro. split; [exact (A i)|exact (A o)].
Qed.

(** Asset types are their own scalars. *)
Definition toy_sc (t : N) : PF toy := fofN t.
