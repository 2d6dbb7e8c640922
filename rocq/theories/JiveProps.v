(** Property theorems for the Anemoi-Jive compression function (C41). *)
From Coq Require Import List ZArith NArith Bool Lia Field.
From Verif Require Import Base Field PField Power Primality Zp RescueModel RescueLemmas JiveModel JiveSpec JiveProofs.
Import ListNotations.
Local Open Scope F_scope.

Lemma jive_exp_inv : exp_inv BLS 5 (j_alpha_inv BLS jive381).
Proof.
  change (j_alpha_inv BLS jive381) with jive_alpha_inv. unfold exp_inv. change (pchar BLS) with bls_r.
  repeat split; vm_compute; discriminate || reflexivity.
Qed.

(** C41: the hash computed with its trace is the hash. *)
Theorem C41_trace_output_is_hash :
  forall x y, output BLS (eval_with_trace BLS jive381 x y) = eval BLS jive381 x y /\
  input BLS (eval_with_trace BLS jive381 x y) = (x, y) /\
  length (intermediate BLS (eval_with_trace BLS jive381 x y)) = 12%nat.
Proof.
  intros x y. split; [apply eval_trace|]. rewrite (trace_eq BLS jive381). cbn [input intermediate].
  split; [reflexivity|].
  assert (L : forall keys s, length (states BLS jive381 keys s) = length keys).
  { induction keys as [|k keys IH]; intros s; cbn [states length]; [reflexivity|]. now rewrite IH. }
  rewrite L. reflexivity.
Qed.
Print Assumptions C41_trace_output_is_hash.

(** C41: the relation of degree five between consecutive recorded states, the
    final state and the output is satisfied by the trace, and by nothing else with
    the same input. *)
Theorem C41_flow_relation_characterises_trace :
  forall x y t, input BLS t = (x, y) ->
  (trace_rel BLS 5 jive381 t <-> t = eval_with_trace BLS jive381 x y).
Proof. intros x y t H. apply (trace_rel_iff BLS jive381 jive_exp_inv), H. Qed.
Print Assumptions C41_flow_relation_characterises_trace.

(** C41: the derived constants are consistent: the generator's inverse, its square
    plus one, the matrix, and the preprocessed round keys (the round keys after
    the linear layer). *)
Definition zmat2 (m : (Z * Z) * (Z * Z)) (v : Z * Z) : Z * Z :=
  ((fst (fst m) * fst v + snd (fst m) * snd v) mod bls_r, (fst (snd m) * fst v + snd (snd m) * snd v) mod bls_r)%Z.
Theorem C41_constants_consistent :
  ((jive_gen * jive_gen_inv) mod bls_r = 1)%Z /\ (jive_gen2p1 = jive_gen * jive_gen + 1)%Z /\
  jive_mds = ((1, jive_gen), (jive_gen, jive_gen * jive_gen + 1))%Z /\
  map (zmat2 jive_mds) jive_kx = jive_px /\
  map (fun v => zmat2 jive_mds (snd v, fst v)) jive_ky = jive_py.
Proof. repeat split; vm_compute; reflexivity. Qed.
Print Assumptions C41_constants_consistent.

(** C41: the degree the trait declares (ALPHA = 7) is not the degree of the
    permutation: the declared relation fails already for one word. *)
Theorem C41_declared_degree_refuted :
  JIVE_ALPHA = 7%N /\
  exists x y u v : BLS, flystel BLS jive381 x y = (u, v) /\
    ~ flystel_rel BLS 7 (j_gen BLS jive381) (j_gen_inv BLS jive381) x y u v.
Proof.
  split; [reflexivity|].
  set (two := fofZ (F := BLS) 2%Z).
  assert (E : fpowN (fpowN two 5) (j_alpha_inv BLS jive381) = two) by (apply pow_inv_l; exact jive_exp_inv).
  set (g := j_gen BLS jive381). set (gi := j_gen_inv BLS jive381).
  exists (fpowN two 5), 0, (fpowN two 5 + (g * ((0 - two) * (0 - two)) + gi)), (0 - two).
  split.
  - unfold flystel. fold g gi. rewrite (sub_zero_sq BLS), E. reflexivity.
  - intros H. apply (declared_gap BLS two) in H; [|reflexivity].
    assert (H2 : fofZ (F := BLS) (2 ^ 7)%Z = fofZ (2 ^ 5)%Z).
    { change (2 ^ 7)%Z with (2 ^ Z.of_nat 7)%Z. change (2 ^ 5)%Z with (2 ^ Z.of_N 5)%Z.
      rewrite <- fofZ_pow, <- fofZ_powN. exact H. }
    apply (fofZ_inj BLS (pchar BLS)) in H2; [discriminate|apply pf_char|]. rewrite bls_pchar. vm_compute. reflexivity.
Qed.
Print Assumptions C41_declared_degree_refuted.

(** The relation theorem has its hypothesis met, for every input, by the trace
    itself; one word by hand: from (2^5, 0). *)
Example C41_case : let two := fofZ (F := BLS) 2%Z in
  flystel_rel BLS 5 (j_gen BLS jive381) (j_gen_inv BLS jive381) (fpow two 5) 0
    (fpow two 5 + j_gen BLS jive381 * (two * two) + j_gen_inv BLS jive381) (- two).
Proof. apply hand_case. Qed.
