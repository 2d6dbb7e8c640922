(** Lemmas about the notes between confidential and anonymous records, over arbitrary
    fields: the commitments of a record, and honest delegated Schnorr proofs. *)
From Coq Require Import List ZArith NArith Bool Lia ZifyBool ZifyNat ZifyN Ring Field.
From Verif Require Import Base Field PField UtilsModel Power RescueModel XfrModel XfrSpec XfrProofs SigmaModel SigmaSpec SigmaProps SimModel
  InspModel InspSpec InspBind InspRun.
Import ListNotations.
Local Open Scope F_scope.

(** ** Algebra *)
Section Alg.
Context (K : PField) (G : Mod K) (B H : G).
Add Field Kif : (f_th K).
Lemma halves (lo hi r s w : K) : (SigmaModel.commit B H lo r + w *: SigmaModel.commit B H hi s)%M = ((lo + w * hi) *: B + (r + s * w) *: H)%M.
Proof. unfold SigmaModel.commit. module_eq. Qed.
Lemma shifted (l h d : G) (w : K) : ((l + w *: d) + w *: (h + (- (1)) *: d) = l + w *: h)%M.
Proof. module_eq. Qed.
Lemma two_lambda (x y a b z0 z1 beta l l' : K) : l <> l' ->
  two_equations x y a b (z0 + z1 * l) beta l -> two_equations x y a b (z0 + z1 * l') beta l' -> beta * x + a = z0 /\ beta * y + b = z1.
Proof.
  unfold two_equations. intros D E E'.
  assert (X : (l - l') * ((beta * y + b) - z1) = 0).
  { transitivity (((beta * x + a) + l * (beta * y + b)) - ((beta * x + a) + l' * (beta * y + b)) - (l - l') * z1); [ring|]. rewrite E, E'. ring. }
  assert (N : l - l' <> 0) by (intros X'; apply D; now apply fsub_0).
  assert (Y : beta * y + b = z1).
  { apply fsub_0. apply (fmul_cancel K (l - l')); [exact N|]. rewrite X. ring. }
  split; [|exact Y]. rewrite Y in E. transitivity (z0 + z1 * l - l * z1); [rewrite <- E; ring|ring].
Qed.
Lemma honest_two (x y a b beta l : K) : two_equations x y a b ((beta * x + a) + (beta * y + b) * l) beta l.
Proof. unfold two_equations. ring. Qed.
Lemma two_openings (c : G) (v r v' r' : K) : SigmaSpec.opens B H c v r -> SigmaSpec.opens B H c v' r' -> ((v - v') *: B + (r - r') *: H = m0)%M.
Proof. unfold SigmaSpec.opens. intros E E'. transitivity ((v *: B + r *: H) - (v' *: B + r' *: H))%M; [module_eq|]. rewrite <- E, <- E'. module_eq. Qed.
Lemma honest_opens (v r : K) : SigmaSpec.opens B H (SigmaModel.commit B H v r) v r.
Proof. reflexivity. Qed.
Lemma split_num (a : N) : fofN (F := K) (a mod 2 ^ 32) + fofZ (2 ^ 32) * fofN (a / 2 ^ 32) = fofN a.
Proof. unfold fofN. rewrite <- fofZ_mul, <- fofZ_add. f_equal. rewrite N2Z.inj_mod, N2Z.inj_div. change (Z.of_N (2 ^ 32)) with (2 ^ 32)%Z.
  pose proof (Z_div_mod_eq_full (Z.of_N a) (2 ^ 32)). lia. Qed.
Lemma zero_blind (w : K) : 0 + 0 * w = 0. Proof. ring. Qed.
Lemma first_beta (z0 z1 b b' x a : K) : b <> b' -> b * x + a = z0 -> b' * x + a = z1 -> x = (z0 - z1) / (b - b').
Proof. intros D <- <-. field. intros E. apply D. now apply fsub_0. Qed.
End Alg.

Section Notes.
Context (F K : PField) (P : rescue_instance F) (HK1 : (2 ^ 252 < pchar K)%Z) (HK2 : (pchar K < 2 ^ 253)%Z) (G : Mod K) (B H : G) {C : Type} (comp : G -> C) (decomp : C -> option G) (Hdc : forall g, decomp (comp g) = Some g)
  (ceqb : C -> C -> bool) (Hceqb : forall a b, reflect (a = b) (ceqb a b)) (as_num : N -> N).
Notation E := (rgroup K G B H comp decomp Hdc ceqb Hceqb).
Notation amount_com := (com_amount K G B H comp decomp Hdc ceqb Hceqb).
Notation type_com := (com_type K G B H comp decomp Hdc ceqb Hceqb as_num).
Notation proof := (ds_proof (F := K) (G := G)).
Notation state_of := (state_comm F P).
Notation answered := (answers F K P).
Notation prove chal := (conf_prove F K P G B H comp decomp Hdc ceqb Hceqb as_num chal).
Notation witness := (witness_of F K G).
Notation sc := (fun t => fofN (F := K) (as_num t)).
Lemma committed_values : forall r : bar E,
  match b_amount r with
  | AConf lo hi => forall l h, decomp lo = Some l -> decomp hi = Some h -> amount_com r = Ok (l + fofZ (2 ^ 32) *: h)%M
  | APlain a => amount_com r = Ok (fofN a *: B + 0 *: H)%M
  end /\
  match b_type r with
  | TConf c => forall g, decomp c = Some g -> type_com r = Ok g
  | TPlain t => type_com r = Ok (fofN (as_num t) *: B + 0 *: H)%M
  end.
Proof.
  intros [am ty owner]; cbn [b_amount b_type]. split.
  - destruct am as [lo hi|a]; unfold com_amount; cbn [b_amount].
    + intros l h El Eh. rewrite El, Eh. reflexivity.
    + rewrite u64_pair_spec. cbn [rmap fst snd]. rewrite (halves K), split_num, zero_blind. reflexivity.
  - destruct ty as [c|t]; unfold com_type; cbn [b_type]; [intros g ->|]; reflexivity.
Qed.

Lemma inputs_ok F0 (p : proof) beta lambda s0 s1 l : ds_resp p = s0 :: s1 :: l -> exists vs, proof_inputs F0 K G p beta lambda = Ok vs.
Proof. intros E0. unfold proof_inputs, insp_inputs. rewrite E0. cbn [map two_responses rmap]. eexists. reflexivity. Qed.
Lemma honest_coms (o : oar E) : consistent E sc o ->
  amount_com (o_bar E o) = Ok (SigmaModel.commit B H (fofN (XfrModel.o_amount E o)) (o_blind_lo E o + o_blind_hi E o * fofZ (2 ^ 32))) /\
  type_com (o_bar E o) = Ok (SigmaModel.commit B H (fofN (as_num (XfrModel.o_type E o))) (o_type_blind E o)).
Proof.
  intros (_ & Ha & Ht). pose proof (committed_values (o_bar E o)) as [Ca Ct]. split.
  - destruct Ha as [(Ea & El & Eh)|Ea]; rewrite Ea in Ca.
    + rewrite Ca. f_equal. change (o_blind_lo E o = (0 : K)) in El. change (o_blind_hi E o = (0 : K)) in Eh. rewrite El, Eh. unfold SigmaModel.commit. now rewrite (zero_blind K).
    + rewrite (Ca _ _ (Hdc _) (Hdc _)). f_equal. unfold SigmaModel.commit. rewrite <- (split_num K). unfold fofN. rewrite N2Z.inj_mod, N2Z.inj_div.
      rewrite <- (halves K). reflexivity.
  - destruct Ht as [(Et & Eb)|Et]; rewrite Et in Ct.
    + rewrite Ct. change (o_type_blind E o = (0 : K)) in Eb. rewrite Eb. reflexivity.
    + rewrite (Ct _ (Hdc _)). reflexivity.
Qed.
Lemma toZ_num (n : N) : (n < 2 ^ 252)%N -> toZ (fofN (F := K) n) = Z.of_N n.
Proof. intros Hn. unfold fofN. rewrite toZ_fofZ. apply Z.mod_small. lia. Qed.
Lemma num_scalar (x : F) : fofN (F := F) (scalar_num F x) = x.
Proof. unfold fofN, scalar_num. rewrite Z2N.id by apply toZ_range. apply fofZ_toZ. Qed.
Lemma honest_proof chal t g r (o : oar E) : consistent E sc o -> (as_num (XfrModel.o_type E o) < 2 ^ 240)%N ->
  exists p i beta lambda ca ct vs, prove chal t g r o = Ok (p, i, beta, lambda) /\
    amount_com (o_bar E o) = Ok ca /\ type_com (o_bar E o) = Ok ct /\ ds_verify B H chal t [ca; ct] p = Ok (beta, lambda) /\
    proof_inputs F K G p beta lambda = Ok vs /\
    insp_honest F K P (witness p i beta lambda) (fofN (XfrModel.o_amount E o)) (fofN (as_num (XfrModel.o_type E o))).
Proof.
  intros Hc Ht. destruct (honest_coms o Hc) as [Ca Ct].
  destruct (C30_honest_accepted B H (inspect F K P) chal t g r (conf_data K G B H comp decomp Hdc ceqb Hceqb as_num o)
    (map (fun vr => SigmaModel.commit B H (fst vr) (snd vr)) (conf_data K G B H comp decomp Hdc ceqb Hceqb as_num o))) as (p & i & beta & lambda & Ep & Ev); [reflexivity| |].
  { intros [|[|[|?]]] d c A1 A2; cbn in A1, A2; try discriminate; injection A1 as <-; injection A2 as <-; apply (honest_opens K). }
  destruct (state_comm_ok F P (toZ (fofN (F := K) (XfrModel.o_amount E o))) (toZ (fofN (F := K) (as_num (XfrModel.o_type E o)))) (toZ (g 0%nat)) (toZ (g 2%nat)) (fofN r)) as [cm Ecm].
  pose proof Ep as Ep'. unfold ds_prove in Ep'. cbn [conf_data map length Nat.eqb negb pair_up seq fst snd combine Nat.mul Nat.add] in Ep'. apply Ok_inj in Ep'.
  assert (Ei : inspect F K P [fofN (XfrModel.o_amount E o); fofN (as_num (XfrModel.o_type E o))] [g 0%nat; g 2%nat] r = scalar_num F cm).
  { unfold inspect. cbn [map]. now rewrite Ecm. }
  rewrite Ei in Ep'. match type of Ep' with (?pp, ?ii, ?bb, ?ll) = _ =>
    assert (E1 : pp = p) by exact (f_equal (fun x => fst (fst (fst x))) Ep'); assert (E2 : ii = i) by exact (f_equal (fun x => snd (fst (fst x))) Ep');
    assert (E3 : bb = beta) by exact (f_equal (fun x => snd (fst x)) Ep') end.
  rewrite E3 in E1. clear Ep' E3.
  assert (EV : exists vs, proof_inputs F K G p beta lambda = Ok vs) by (subst p; eapply inputs_ok; reflexivity).
  destruct EV as [vs EV]. exists p, i, beta, lambda. do 2 eexists. exists vs. split; [exact Ep|]. split; [exact Ca|]. split; [exact Ct|]. split; [exact Ev|]. split; [exact EV|]. clear EV.
  subst p i.
  unfold insp_honest, witness_of. cbn [iw_data iw_resp iw_beta iw_lambda iw_r iw_comm ds_resp ds_comm di_pairs di_r map fst].
  do 6 eexists. split; [reflexivity|]. split; [reflexivity|]. split; [apply (honest_two K)|].
  assert (Ha : (XfrModel.o_amount E o < 2 ^ 64)%N) by apply Hc.
  rewrite !toZ_num by lia. split; [lia|]. split; [lia|]. split; [|split; reflexivity].
  rewrite !toZ_num in Ecm by lia. rewrite num_scalar. exact Ecm.
Qed.

(** The state of an honest run answers it. *)
Lemma honest_state chal t g r (o : oar E) : consistent E sc o -> (as_num (XfrModel.o_type E o) < 2 ^ 240)%N ->
  forall p i beta lambda, prove chal t g r o = Ok (p, i, beta, lambda) ->
  answered (fofN (ds_comm p)) (map fst (ds_resp p)) beta lambda
    (Z.of_N (XfrModel.o_amount E o), Z.of_N (as_num (XfrModel.o_type E o)), toZ (g 0%nat), toZ (g 2%nat), fofN r).
Proof.
  intros Hc Ht p i beta lambda Ep. destruct (honest_proof chal t g r o Hc Ht) as (p' & i' & b' & l' & ca & ct & vs & E1 & _ & _ & _ & _ & HW).
  rewrite Ep in E1. apply Ok_inj in E1. injection E1 as <- <- <- <-.
  assert (Ei : di_pairs i = [(fofN (XfrModel.o_amount E o), g 0%nat); (fofN (as_num (XfrModel.o_type E o)), g 2%nat)] /\ di_r i = r).
  { unfold conf_prove, ds_prove in Ep. cbn [conf_data map length Nat.eqb negb pair_up seq fst snd combine Nat.mul Nat.add] in Ep. apply Ok_inj in Ep.
    match type of Ep with (?pp, ?ii, ?bb, ?ll) = _ => assert (E2 : ii = i) by exact (f_equal (fun x => snd (fst (fst x))) Ep) end. subst i. split; reflexivity. }
  destruct Ei as [Ei Er]. destruct HW as (x & a & y & b & rest & s & W1 & W2 & W3 & W4 & W5 & W6 & _). cbn [witness_of iw_data iw_resp iw_beta iw_lambda iw_r iw_comm] in *.
  rewrite Ei in W1. injection W1 as <- <- <- <- _. rewrite Er in W6.
  assert (Ha : (XfrModel.o_amount E o < 2 ^ 64)%N) by apply Hc. unfold answers. rewrite !toZ_num in W6 by lia.
  pose proof (toZ_range K (g 0%nat)) as R0. pose proof (toZ_range K (g 2%nat)) as R2.
  repeat (split; [first [lia|exact W6]|]). exists s. split; [exact W2|]. rewrite !fofZ_toZ. exact W3.
Qed.


(** Oracles that answer one or zero, according to [i] before the first challenge is
    drawn and to [j] after it. *)
Definition drawn (t : transcript (F := K) (G := G)) : bool := existsb (fun e => match e with Drawn => true | _ => false end) t.
Definition case_chal (i j : bool) (t : transcript (F := K) (G := G)) : K := if drawn t then (if j then 1 else 0) else (if i then 1 else 0).
(** Rewinding the honest prover: with these oracles and the same draws its first message
    is the same, and its responses depend on the first challenge only. *)
Lemma rewind (g : rng (F := K)) (r : N) t (o : oar E) : drawn t = false ->
  exists (q : K -> proof) ins, forall i j : bool, let beta := if i then 1 else 0 : K in let lambda := if j then 1 else 0 : K in
    prove (case_chal i j) t g r o = Ok (q beta, ins, beta, lambda) /\
    (forall b, ds_comm (q b) = ds_comm (q 0)) /\ (forall b, ds_rand (q b) = ds_rand (q 0)).
Proof.
  intros Ht. set (data := conf_data K G B H comp decomp Hdc ceqb Hceqb as_num o). set (rs := pair_up g (length data)). set (cs := map (fun vr => SigmaModel.commit B H (fst vr) (snd vr)) data).
  exists (fun b => mkDs (inspect F K P (map fst data) (map fst rs) r) (map (fun vr => SigmaModel.commit B H (fst vr) (snd vr)) rs)
    (map (fun dr => (b * fst (fst dr) + fst (snd dr), b * snd (fst dr) + snd (snd dr))) (combine data rs))), (mkDi (combine (map fst data) (map fst rs)) r).
  intros i j. split; [|split; reflexivity].
  assert (X : forall cm rand, case_chal i j (ds_transcript B H t cs cm rand) = if i then 1 else 0).
  { intros cm rand. unfold case_chal, drawn, ds_transcript. rewrite existsb_app. change (existsb _ t) with (drawn t). rewrite Ht. cbn [orb app existsb]. rewrite existsb_app.
    assert (Z1 : forall (l : list G), existsb (fun e : ev => match e with Drawn => true | _ => false end) (map Elem l) = false) by (induction l; auto).
    assert (Z2 : forall (l : list G), existsb (fun e : ev => match e with Drawn => true | _ => false end) (map Com l) = false) by (induction l; auto).
    rewrite Z1. cbn [orb existsb]. rewrite Z2. reflexivity. }
  assert (Y : forall t' resp, case_chal i j (ds_after t' resp) = if j then 1 else 0).
  { intros t' resp. unfold case_chal, drawn, ds_after. rewrite existsb_app. cbn [app existsb orb]. rewrite Bool.orb_true_r. reflexivity. }
  unfold conf_prove, ds_prove. fold data. fold cs. unfold cs at 1. rewrite map_length, Nat.eqb_refl. cbn [negb]. fold rs. rewrite X, Y. reflexivity.
Qed.
Lemma four_runs (g : rng (F := K)) (r : N) t (o : oar E) : consistent E sc o -> (as_num (XfrModel.o_type E o) < 2 ^ 240)%N -> drawn t = false ->
  exists ca ct (p : bool -> proof) beta lambda (os : bool -> bool -> state F) comm rand,
  (forall i, ds_comm (p i) = comm /\ ds_rand (p i) = rand) /\ beta true <> beta false /\ (forall i : bool, lambda i true <> lambda i false) /\
  (forall i j, ds_verify B H (case_chal i j) t [ca; ct] (p i) = Ok (beta i, lambda i j)) /\
  (forall i j, answered (fofN comm) (map fst (ds_resp (p i))) (beta i) (lambda i j) (os i j)).
Proof.
  intros H1 H2 Ht.
  pose proof (fun i j => honest_proof (case_chal i j) t g r o H1 H2) as HP.
  pose proof (fun i j => honest_state (case_chal i j) t g r o H1 H2) as HS.
  destruct (HP true true) as (p0 & i0 & b0 & l0 & ca & ct & vs & Q1 & Q2 & Q3 & _).
  remember (fun i : bool => if i then 1 else 0 : K) as beta eqn:Eb. remember (fun _ j : bool => if j then 1 else 0 : K) as lam eqn:El.
  assert (EX : exists (q : K -> proof) ins, forall i j, prove (case_chal i j) t g r o = Ok (q (beta i), ins, beta i, lam i j) /\
    (forall b, ds_comm (q b) = ds_comm (q 0)) /\ (forall b, ds_rand (q b) = ds_rand (q 0))).
  { subst beta lam. exact (rewind g r t o Ht). }
  destruct EX as (q & ins & EX).
  exists ca, ct, (fun i => q (beta i)), beta, lam, (fun _ _ => (Z.of_N (XfrModel.o_amount E o), Z.of_N (as_num (XfrModel.o_type E o)), toZ (g 0%nat), toZ (g 2%nat), fofN r)), (ds_comm (q 0)), (ds_rand (q 0)).
  split; [intros i; destruct (EX i true) as [_ [Y1 Y2]]; auto|]. split; [subst beta; exact (F_1_neq_0 (f_th K))|]. split; [intros i; subst lam; exact (F_1_neq_0 (f_th K))|]. split.
  - intros i j. destruct (HP i j) as (p1 & i1 & b1 & l1 & ca1 & ct1 & vs1 & R1 & R2 & R3 & R4 & _). destruct (EX i j) as [Y _]. rewrite Y in R1. apply Ok_inj in R1.
    injection R1 as E1 _ E2 E3. rewrite Q2 in R2. apply Ok_inj in R2. rewrite Q3 in R3. apply Ok_inj in R3. subst ca1 ct1. rewrite E1, E2, E3. exact R4.
  - intros i j. destruct (EX i j) as [Y [Y1 _]]. rewrite <- (Y1 (beta i)). exact (HS i j _ _ _ _ Y).
Qed.
End Notes.
