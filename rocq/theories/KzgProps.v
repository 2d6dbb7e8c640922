(** C20, C21: KZG openings and their batches. *)
From Coq Require Import List Arith NArith ZArith Bool Lia Field Ring.
From Verif Require Import Base Field Zp PField PolyModel PolySpec PolyProofs PolyLemmas KzgModel KzgSpec KzgProofs.
Import ListNotations.
Local Open Scope F_scope.

Section Props.
Context {F : Field} {G1 G2 GT : Mod F}.
Context (e : G1 -> G2 -> GT) (base1 : G1) (base2 : G2) (pairing : pairing_for e base2).
Add Field Fkp : (f_th F).
Notation setup := (setup base1 base2).

(** ** C20 *)
(** Committing evaluates at the setup secret, and is refused exactly above the maximal degree. *)
Theorem C20_commit n s (p : list F) :
  commit (setup n s) p = if Nat.leb (length p) (S n) then Ok (com base1 s p) else Err.
Proof. apply commit_setup. Qed.
(** Honest openings are produced and verify with the value of the polynomial. *)
Theorem C20_honest_opening n s (p : list F) x d : (length p <= S n)%nat -> (degree p <= d)%nat ->
  exists c w, commit (setup n s) p = Ok c /\ prove (setup n s) p x d = Ok w /\
  verify e (setup n s) c x (value p x) w = Ok tt.
Proof.
  intros L D. destruct (prove_ok base1 base2 n s p x d L D) as [q [E V]]. exists (com base1 s p), (com base1 s q).
  split; [rewrite commit_setup, (proj2 (Nat.leb_le _ _) L); reflexivity|]. split; [exact E|].
  apply (verify_iff e base1 base2 pairing). unfold opens, com. rewrite <- !hv_value.
  transitivity ((hv p s - hv p x) *: base1)%M; [module_eq|]. rewrite V. module_eq.
Qed.
(** The prover refuses a polynomial above the degree it was asked for. *)
Theorem C20_degree_refused k (p : list F) x d : (d < degree p)%nat -> prove (G2 := G2) (G1 := G1) k p x d = Err.
Proof. intros H. unfold prove. now rewrite (proj2 (Nat.ltb_lt _ _) H). Qed.
(** Verification accepts exactly the openings, for any commitment, point, value and proof. *)
Theorem C20_exact n s c x v w : verify e (setup n s) c x v w = Ok tt <-> opens base1 s c x v w.
Proof. apply (verify_iff e base1 base2 pairing). Qed.
Theorem C20_no_panic n s c x v w : verify e (setup n s) c x v w = Ok tt \/ verify e (setup n s) c x v w = Err.
Proof. rewrite (verify_setup e base1 base2 pairing). destruct (m_dec _ _); auto. Qed.
(** A proof for a wrong value, when the prover knows polynomials behind the commitment and the
    proof, is a nonzero polynomial of small degree with the setup secret as a root. *)
Theorem C20_wrong_value_yields_secret n s (f h : list F) x v : base1 <> m0 ->
  verify e (setup n s) (com base1 s f) x v (com base1 s h) = Ok tt -> v <> value f x ->
  let d := sub (sub f [v]) (sub (0 :: h) (mul_scalar h x)) in
  value d s = 0 /\ (exists i, coef d i <> 0) /\ (length d <= Nat.max (length f) (S (length h)))%nat.
Proof.
  intros NG A NV. apply (verify_iff e base1 base2 pairing) in A. unfold opens, com in A. cbv zeta.
  assert (V : forall y, hv (sub (sub f [v]) (sub (0 :: h) (mul_scalar h x))) y = hv f y - v - (y - x) * hv h y).
  { intros y. rewrite !hv_sub, hv_scale. cbn [hv]. ring. }
  split; [|split].
  - rewrite <- hv_value, V, !hv_value.
    assert (Z : ((value f s - v - (s - x) * value h s) *: base1)%M = m0).
    { transitivity ((value f s *: base1 - v *: base1) - (s - x) *: (value h s *: base1))%M; [module_eq|]. rewrite A. module_eq. }
    apply smul_eq_0 in Z. destruct Z as [Z|Z]; [exact Z|now destruct NG].
  - destruct (Forall_dec (fun a : F => a = 0) (fun a => f_dec a 0) (sub (sub f [v]) (sub (0 :: h) (mul_scalar h x)))) as [A0|A0].
    + exfalso. apply NV. assert (Z : hv (sub (sub f [v]) (sub (0 :: h) (mul_scalar h x))) x = 0).
      { apply hv_zero. intros i. unfold coef. destruct (nth_in_or_default i (sub (sub f [v]) (sub (0 :: h) (mul_scalar h x))) 0) as [I|I]; [|exact I].
        exact (proj1 (Forall_forall _ _) A0 _ I). }
      rewrite V, hv_value in Z. symmetry. apply (proj1 (fsub_0 F _ _)). rewrite <- Z. ring.
    + apply Exists_Forall_neg in A0; [|intros a; destruct (f_dec a 0); auto]. apply Exists_exists in A0. destruct A0 as [a [I Na]].
      apply (In_nth _ _ 0) in I. destruct I as [i [_ E]]. exists i. unfold coef. rewrite E. exact Na.
  - pose proof (sub_len (sub f [v]) (sub (0 :: h) (mul_scalar h x))). pose proof (sub_len f [v]). pose proof (sub_len (0 :: h) (mul_scalar h x)).
    pose proof (scale_len h x). cbn [length] in *. lia.
Qed.
(** Two accepted values for one commitment and point give the group element 1/(s - x) of the
    q-SDH problem (or the point is the secret itself and the generator is zero). *)
Theorem C20_two_values_break n s c x v v' w w' : base1 <> m0 ->
  verify e (setup n s) c x v w = Ok tt -> verify e (setup n s) c x v' w' = Ok tt -> v <> v' ->
  s <> x /\ (finv (v' - v) *: (w - w') = finv (s - x) *: base1)%M.
Proof.
  intros NG A B N. apply (verify_iff e base1 base2 pairing) in A, B. unfold opens in A, B.
  assert (D : ((v' - v) *: base1 = (s - x) *: (w - w'))%M).
  { transitivity ((c - v *: base1) - (c - v' *: base1))%M; [module_eq|]. rewrite A, B. module_eq. }
  assert (Nv : v' - v <> 0) by (intros Z; apply N; symmetry; now apply (proj1 (fsub_0 F _ _))).
  assert (Ns : s - x <> 0).
  { intros Z. rewrite Z in D. assert (Y : ((v' - v) *: base1)%M = m0) by (rewrite D; module_eq). apply smul_eq_0 in Y. tauto. }
  split; [intros ->; apply Ns; ring|].
  apply (smul_cancel (v' - v)); [exact Nv|]. apply (smul_cancel (s - x)); [exact Ns|].
  transitivity ((s - x) *: (w - w'))%M; [|rewrite <- D].
  - transitivity (((v' - v) * finv (v' - v)) *: ((s - x) *: (w - w')))%M; [module_eq|].
    replace ((v' - v) * finv (v' - v)) with (1 : F) by (field; exact Nv). apply smul_1.
  - transitivity (((s - x) * finv (s - x)) *: ((v' - v) *: base1))%M; [|module_eq].
    replace ((s - x) * finv (s - x)) with (1 : F) by (field; exact Ns). symmetry. apply smul_1.
Qed.
(** The verifier's parameters after shrinking decide the same. *)
Theorem C20_shrink n s : exists k, shrink (setup n s) = Ok k /\ forall c x v w, verify e k c x v w = verify e (setup n s) c x v w.
Proof. eexists. split; reflexivity. Qed.
(** Blinding factors move the commitment to the polynomial p + b(X) (1 - X^z). *)
Theorem C20_blinding n s c (b : list F) z : (z + length b <= S n)%nat ->
  apply_blind_factors (setup n s) c b z = Ok (c + (value b s * (1 - fpow s z)) *: base1)%M.
Proof.
  intros L. unfold apply_blind_factors. rewrite (apply_blinds_ok base1 base2 n s z b 0 c) by lia. f_equal. cbn [fpow].
  rewrite hv_value. module_eq.
Qed.

(** ** C21 *)
Lemma defects_nth s : forall cs xs vs ws i, length xs = length cs -> length vs = length cs -> length ws = length cs -> (i < length cs)%nat ->
  nth i (defects base1 s cs xs vs ws) m0 = defect base1 s (nth i cs m0) (nth i xs 0) (nth i vs 0) (nth i ws m0).
Proof.
  induction cs as [|c cs IH]; intros [|x xs] [|v vs] [|w ws] i L1 L2 L3 Hi; cbn [length] in *; try lia.
  destruct i as [|i]; cbn [defects nth]; [reflexivity|]. apply IH; lia.
Qed.
Lemma defects_len s : forall cs xs vs ws, length xs = length cs -> length vs = length cs -> length ws = length cs -> length (defects base1 s cs xs vs ws) = length cs.
Proof.
  induction cs as [|c cs IH]; intros [|x xs] [|v vs] [|w ws] L1 L2 L3; cbn [length defects] in *; try lia. f_equal. apply IH; lia.
Qed.
Lemma defect_opens s c x v w : defect base1 s c x v w = m0 <-> opens base1 s c x v w.
Proof. unfold defect, opens. rewrite msub_0. split; intros H; now symmetry. Qed.

(** Openings that all verify are accepted together, for every challenge. *)
Theorem C21_valid_accepted n s u cs xs vs ws : (0 < length cs)%nat -> length xs = length cs -> length vs = length cs -> length ws = length cs ->
  (forall i, (i < length cs)%nat -> verify e (setup n s) (nth i cs m0) (nth i xs 0) (nth i vs 0) (nth i ws m0) = Ok tt) ->
  batch_verify_diff_points e (setup n s) cs xs vs ws u = Ok tt.
Proof.
  intros L0 L1 L2 L3 A. apply (diff_iff e base1 base2 pairing); auto. apply wsum_ext. intros a Ha.
  apply (In_nth _ _ m0) in Ha. destruct Ha as [i [Hi <-]]. rewrite defects_len in Hi by assumption.
  rewrite defects_nth by assumption. apply defect_opens. apply (verify_iff e base1 base2 pairing n). now apply A.
Qed.
(** If the commitments, values and proofs are fixed before the challenge, then only fewer
    challenges than there are openings are bad: acceptance for [length cs] of them implies
    that every single opening verifies.  The full property would need this for openings
    chosen after the challenge, as the protocol allows; that is refuted below. *)
Theorem C21_fixed_openings_partial n s us cs xs vs ws : (0 < length cs)%nat -> length xs = length cs -> length vs = length cs -> length ws = length cs ->
  NoDup us -> (length cs <= length us)%nat ->
  (forall u, In u us -> batch_verify_diff_points e (setup n s) cs xs vs ws u = Ok tt) ->
  forall i, (i < length cs)%nat -> verify e (setup n s) (nth i cs m0) (nth i xs 0) (nth i vs 0) (nth i ws m0) = Ok tt.
Proof.
  intros L0 L1 L2 L3 N Lu A i Hi. apply (verify_iff e base1 base2 pairing). apply defect_opens.
  rewrite <- (defects_nth s cs xs vs ws i) by assumption.
  apply (wsum_roots us (defects base1 s cs xs vs ws) N); [rewrite defects_len; auto| |apply nth_In; rewrite defects_len; auto].
  intros u Hu. apply (diff_iff e base1 base2 pairing n); auto.
Qed.
(** For a given challenge, the check says exactly that the second error cancels the first. *)
Theorem C21_two_points n s u c1 c2 x1 x2 v1 v2 w1 w2 :
  batch_verify_diff_points e (setup n s) [c1; c2] [x1; x2] [v1; v2] [w1; w2] u = Ok tt <->
  ((s - x1) *: w1 - (c1 - v1 *: base1) + u *: ((s - x2) *: w2 - (c2 - v2 *: base1)) = m0)%M.
Proof.
  rewrite (diff_iff e base1 base2 pairing) by (cbn; lia). cbn [defects wsum]. unfold defect.
  match goal with |- ?a = _ <-> ?b = _ => replace a with b by module_eq; reflexivity end.
Qed.
(** Lengths that differ, and empty batches, panic. *)
Theorem C21_bad_lengths_panic n s u cs xs vs ws :
  batch_verify_diff_points e (setup n s) cs xs vs ws u = Panic <->
  ~ ((0 < length ws)%nat /\ length ws = length xs /\ length ws = length vs /\ length ws = length cs).
Proof.
  unfold batch_verify_diff_points.
  destruct (Nat.eqb_spec (length ws) (length xs)) as [E1|E1]; cbn [andb negb]; [|split; [intros _ [_ [H _]]; lia|reflexivity]].
  destruct (Nat.eqb_spec (length ws) (length vs)) as [E2|E2]; cbn [andb negb]; [|split; [intros _ [_ [_ [H _]]]; lia|reflexivity]].
  destruct (Nat.eqb_spec (length ws) (length cs)) as [E3|E3]; cbn [andb negb]; [|split; [intros _ [_ [_ [_ H]]]; lia|reflexivity]].
  cbn [pp1 pp2 KzgModel.setup g1_powers].
  destruct cs as [|c cs], xs as [|x xs], vs as [|v vs], ws as [|w ws]; cbn [length] in *; try lia.
  - split; [intros _ [H _]; lia|reflexivity].
  - destruct (diff_loop cs xs vs ws u u _) as [[[l r] rv] rc]. destruct (meqb _ _); split; try discriminate; intros H; exfalso; apply H; lia.
Qed.
(** The full property is false: once the challenge is known, the openings of arbitrary
    commitments to arbitrary values at two different points can be computed from public data
    so that the check accepts. *)
Theorem C21_forged_openings_refuted n s u c1 c2 x1 x2 v1 v2 : u <> 0 -> x1 <> x2 ->
  let w1 := (finv (x2 - x1) *: (c1 + u *: c2 - (v1 + u * v2) *: base1))%M in
  let w2 := (fopp (finv u) *: w1)%M in
  batch_verify_diff_points e (setup n s) [c1; c2] [x1; x2] [v1; v2] [w1; w2] u = Ok tt.
Proof.
  intros Nu Nx w1 w2. apply C21_two_points.
  assert (Nd : x2 - x1 <> 0) by (intros Z; apply Nx; symmetry; now apply (proj1 (fsub_0 F _ _))).
  assert (E : ((x2 - x1) *: w1 = c1 + u *: c2 - (v1 + u * v2) *: base1)%M).
  { unfold w1. rewrite smul_smul. replace ((x2 - x1) * finv (x2 - x1)) with (1 : F) by (field; exact Nd). apply smul_1. }
  unfold w2. transitivity ((s - x1) *: w1 - (s - x2) *: ((u * finv u) *: w1) - (c1 + u *: c2 - (v1 + u * v2) *: base1))%M; [module_eq|].
  rewrite <- E. replace (u * finv u) with (1 : F) by (field; exact Nu). module_eq.
Qed.

(** ** The one-point batch *)
Context (draw : list (tmsg G1) -> F).
(** Honest batched openings verify. *)
Theorem C21_batch_honest n s t ps x d : ps <> [] -> (forall p, In p ps -> (length p <= S n)%nat) ->
  exists w t', batch_prove draw (setup n s) t ps x d = Ok (w, t') /\
  batch_verify e draw (setup n s) t (map (com base1 s) ps) d x (map (fun p => value p x) ps) w = Ok tt.
Proof.
  intros N L. destruct (batch_prove_ok base1 base2 draw n s t ps x d N L) as [q [E [_ V]]].
  eexists _, _. split; [exact E|]. unfold batch_verify, batch, challenge in *. cbn [fst] in V.
  rewrite batch_sum_ok by now rewrite !map_length.
  set (alpha := draw _) in *. apply (verify_iff e base1 base2 pairing). unfold opens, com.
  assert (W : wsum alpha (map (com base1 s) ps) = (hv (map (fun p => hv p s) ps) alpha *: base1)%M).
  { clear. induction ps as [|p ps IH]; cbn [map wsum hv]; [module_eq|]. rewrite IH. unfold com. rewrite <- (hv_value p). module_eq. }
  change (map (fun p => (value p s *: base1)%M) ps) with (map (com base1 s) ps). rewrite W.
  assert (M : map (fun p => value p x) ps = map (fun p => hv p x) ps) by (apply map_ext; intros p; symmetry; apply hv_value). rewrite M.
  transitivity ((hv (map (fun p => hv p s) ps) alpha - hv (map (fun p => hv p x) ps) alpha) *: base1)%M; [module_eq|].
  rewrite V, hv_value. module_eq.
Qed.
(** The combining challenge depends on the point and the degree bound, not on the commitments
    or the values: any values with the same combination are accepted with the same proof. *)
Theorem C21_batch_values_unbound_refuted n s t c1 c2 d x v1 v2 w delta :
  batch_verify e draw (setup n s) t [c1; c2] d x [v1; v2] w = Ok tt ->
  batch_verify e draw (setup n s) t [c1; c2] d x
    [v1 + draw (init_batch t d x ++ [TDrawn 0]) * delta; v2 - delta] w = Ok tt.
Proof.
  unfold batch_verify, batch, challenge. set (alpha := draw _). cbn [batch_sum]. intros H.
  match goal with |- verify e _ _ x ?v w = _ => match type of H with verify e _ _ x ?v0 w = _ => replace v with v0 by ring end end. exact H.
Qed.
(** Commitments beyond the last value are not looked at. *)
Theorem C21_batch_truncation_refuted n s t cs extra d x vs w : length cs = length vs ->
  batch_verify e draw (setup n s) t (cs ++ extra) d x vs w = batch_verify e draw (setup n s) t cs d x vs w.
Proof.
  intros L. unfold batch_verify, batch, challenge. set (alpha := draw _).
  assert (X : forall vs cs mult (c : G1) v, length cs = length vs -> batch_sum (cs ++ extra) vs alpha mult c v = batch_sum cs vs alpha mult c v).
  { clear. induction vs as [|v0 vs IH]; intros [|c0 cs] mult c v L; cbn [length] in L; try lia; cbn [batch_sum app].
    - destruct extra; reflexivity.
    - apply IH. lia. }
  now rewrite X.
Qed.
End Props.

(** ** Non-vacuity: the field modulo 101 as its own groups, with multiplication as the pairing. *)
Section Examples.
Let z (x : Z) : P101 := fofZ x.
Let G := self_mod P101.
Let e (a b : G) : G := fmul (a : P101) b.
Add Field F101 : (f_th P101).
Example pairing_example : pairing_for e (z 1 : G).
Proof.
  unfold pairing_for, e. cbn [mcar m0 madd smul self_mod G]. repeat split; intros; try ring.
  transitivity (fmul a (z 1)); [|exact H]. unfold z. change (fofZ 1 : P101) with (1 : P101). ring.
Qed.
(** 5 + 2X + X^3 at the point 3, secret 20. *)
Example C20_example : let k := setup (G1 := G) (G2 := G) (z 1 : G) (z 1 : G) 4 (z 20) in
  match commit k [z 5; z 2; z 0; z 1], prove k [z 5; z 2; z 0; z 1] (z 3) 4 with
  | Ok c, Ok w => match verify e k c (z 3) (z 38) w, verify e k c (z 3) (z 39) w with Ok _, Err => true | _, _ => false end
  | _, _ => false end = true.
Proof. vm_compute. reflexivity. Qed.
(** A forged pair of openings: accepted together although neither verifies. *)
Example C21_forgery_example : let k := setup (G1 := G) (G2 := G) (z 1 : G) (z 1 : G) 4 (z 20) in
  let w1 : G := smul (finv (z 4 - z 3)) (msub (madd (z 7 : G) (smul (z 9) (z 8 : G))) (smul (z 1 + z 9 * z 2) (z 1 : G))) in
  let w2 : G := smul (fopp (finv (z 9))) w1 in
  match batch_verify_diff_points e k [z 7; z 8] [z 3; z 4] [z 1; z 2] [w1; w2] (z 9),
        verify e k (z 7 : G) (z 3) (z 1) w1, verify e k (z 8 : G) (z 4) (z 2) w2 with
  | Ok _, Err, Err => true | _, _, _ => false end = true.
Proof. vm_compute. reflexivity. Qed.
End Examples.

Print Assumptions C20_commit. Print Assumptions C20_honest_opening. Print Assumptions C20_degree_refused. Print Assumptions C20_exact.
Print Assumptions C20_no_panic. Print Assumptions C20_wrong_value_yields_secret. Print Assumptions C20_two_values_break. Print Assumptions C20_shrink.
Print Assumptions C20_blinding. Print Assumptions C21_valid_accepted. Print Assumptions C21_fixed_openings_partial. Print Assumptions C21_two_points.
Print Assumptions C21_bad_lengths_panic. Print Assumptions C21_forged_openings_refuted. Print Assumptions C21_batch_honest.
Print Assumptions C21_batch_values_unbound_refuted. Print Assumptions C21_batch_truncation_refuted.
