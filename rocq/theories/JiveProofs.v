From Coq Require Import List ZArith NArith Bool Lia Field.
From Verif Require Import Base Field PField Power JiveModel JiveSpec.
Import ListNotations.
Local Open Scope F_scope.

Section Proofs.
Context (F : PField).
Add Field Fjv : (f_th F).

Lemma declared_gap (t g gi u v : F) : v = 0 - t -> flystel_rel F 7 g gi (fpowN t 5) 0 u v -> fpow t 7 = fpowN t 5.
Proof.
  intros -> [H _]. rewrite <- H. replace (0 - (0 - t)) with t by ring. ring.
Qed.
Lemma hand_case (t g gi : F) : flystel_rel F 5 g gi (fpow t 5) 0 (fpow t 5 + g * (t * t) + gi) (- t).
Proof. unfold flystel_rel. cbn [fpow]. split; ring. Qed.
Lemma sub_zero_sq (x g : F) : x - g * (0 * 0) = x.
Proof. ring. Qed.
Lemma trace_loop_state J keys : forall s acc,
  fst (trace_loop F J keys s acc) = fold_left (fun s k => jive_round F J k s) keys s.
Proof. induction keys as [|k keys IH]; intros s acc; cbn [trace_loop fold_left]; [reflexivity|]. apply IH. Qed.
Lemma eval_trace J x y : output F (eval_with_trace F J x y) = eval F J x y.
Proof.
  unfold eval_with_trace, eval. pose proof (trace_loop_state J (j_keys F J) (x, y) []) as H.
  destruct (trace_loop F J (j_keys F J) (x, y) []) as [s inter]. cbn [fst output] in *. now rewrite <- H.
Qed.

Context (J : jive_params F) (HJ : exp_inv F 5 (j_alpha_inv F J)).

Lemma flystel_rel_iff x y u v :
  flystel_rel F 5 (j_gen F J) (j_gen_inv F J) x y u v <-> flystel F J x y = (u, v).
Proof.
  unfold flystel_rel, flystel. rewrite <- fpowN_5.
  split.
  - intros [H1 H2].
    assert (E : fpowN (x - j_gen F J * (y * y)) (j_alpha_inv F J) = y - v).
    { rewrite <- H1. replace (fpowN (y - v) 5 + j_gen F J * (y * y) - j_gen F J * (y * y)) with (fpowN (y - v) 5) by ring.
      now apply pow_inv_l. }
    rewrite E, <- H2, <- H1. f_equal; ring.
  - intros H. assert (Hu := f_equal fst H). assert (Hv := f_equal snd H). cbn [fst snd] in Hu, Hv.
    assert (E : fpowN (y - v) 5 = x - j_gen F J * (y * y)).
    { rewrite <- Hv. replace (y - (y - fpowN (x - j_gen F J * (y * y)) (j_alpha_inv F J)))
        with (fpowN (x - j_gen F J * (y * y)) (j_alpha_inv F J)) by ring. now apply pow_inv_r. }
    rewrite Hv in Hu. rewrite E. split; [ring|]. rewrite <- Hu. ring.
Qed.
Lemma round_rel_iff k s t : round_rel F 5 J k s t <-> jive_round F J k s = t.
Proof.
  destruct s as [[sx0 sx1] [sy0 sy1]], k as [[kx0 kx1] [ky0 ky1]], t as [[u0 u1] [v0 v1]].
  unfold round_rel, jive_round, permute, mat2, add2. destruct (j_mds F J) as [[a b] [d e]]. cbn [fst snd].
  rewrite !flystel_rel_iff.
  replace (0 + a * (sx0 + kx0) + b * (sx1 + kx1)) with (a * (sx0 + kx0) + b * (sx1 + kx1)) by ring.
  replace (0 + d * (sx0 + kx0) + e * (sx1 + kx1)) with (d * (sx0 + kx0) + e * (sx1 + kx1)) by ring.
  replace (0 + a * (sy1 + ky1) + b * (sy0 + ky0)) with (a * (sy1 + ky1) + b * (sy0 + ky0)) by ring.
  replace (0 + d * (sy1 + ky1) + e * (sy0 + ky0)) with (d * (sy1 + ky1) + e * (sy0 + ky0)) by ring.
  destruct (flystel F J (a * (sx0 + kx0) + b * (sx1 + kx1)) (a * (sy1 + ky1) + b * (sy0 + ky0))) as [p q].
  destruct (flystel F J (d * (sx0 + kx0) + e * (sx1 + kx1)) (d * (sy1 + ky1) + e * (sy0 + ky0))) as [p' q'].
  split; [intros [H1 H2]; now injection H1 as -> ->; injection H2 as -> ->|].
  intros H. injection H as -> -> -> ->. split; reflexivity.
Qed.
(** The states after each round. *)
Fixpoint states (keys : list (vec2 F * vec2 F)) s : list (vec2 F * vec2 F) :=
  match keys with [] => [] | k :: keys' => jive_round F J k s :: states keys' (jive_round F J k s) end.
Lemma trace_loop_states keys : forall s acc, snd (trace_loop F J keys s acc) = acc ++ states keys s.
Proof.
  induction keys as [|k keys IH]; intros s acc; cbn [trace_loop states]; [now rewrite app_nil_r|].
  cbn zeta. rewrite IH, <- app_assoc. reflexivity.
Qed.
Lemma rounds_rel_iff keys : forall s ts, rounds_rel F 5 J keys s ts <-> ts = states keys s.
Proof.
  induction keys as [|k keys IH]; intros s [|t ts]; cbn [rounds_rel states]; try (split; [contradiction|discriminate]).
  - split; auto.
  - rewrite round_rel_iff, IH. split.
    + intros [<- ->]. reflexivity.
    + intros H. injection H as -> ->. split; reflexivity.
Qed.
Lemma last_states keys : forall s, last (states keys s) s = fold_left (fun s k => jive_round F J k s) keys s.
Proof.
  induction keys as [|k keys IH]; intros s; [reflexivity|]. cbn [states fold_left]. rewrite <- IH.
  generalize (jive_round F J k s). intros t. destruct keys as [|k' keys]; [reflexivity|].
  cbn [states last]. set (l := states keys (jive_round F J k' t)). clearbody l. revert l.
  generalize (jive_round F J k' t). intros u l. revert u. induction l as [|v l IHl]; intros u; [reflexivity|].
  cbn [last]. apply IHl.
Qed.
Lemma permute_explicit s :
  permute F (j_mds F J) s =
  let '((x0, x1), (y0, y1)) := s in
  let '((a, b), (c, e)) := j_mds F J in
  ((a * x0 + b * x1, c * x0 + e * x1), (a * y1 + b * y0, c * y1 + e * y0)).
Proof.
  destruct s as [[x0 x1] [y0 y1]]. unfold permute, mat2. destruct (j_mds F J) as [[a b] [d e]]. cbn [fst snd].
  f_equal; f_equal; ring.
Qed.
Lemma trace_eq x y : eval_with_trace F J x y =
  mkTrace F (x, y) (states (j_keys F J) (x, y)) (permute F (j_mds F J) (last (states (j_keys F J) (x, y)) (x, y)))
    (sum2 F (x, y) + sum2 F (permute F (j_mds F J) (last (states (j_keys F J) (x, y)) (x, y)))).
Proof.
  unfold eval_with_trace. pose proof (trace_loop_state J (j_keys F J) (x, y) []) as H1.
  pose proof (trace_loop_states (j_keys F J) (x, y) []) as H2.
  destruct (trace_loop F J (j_keys F J) (x, y) []) as [s inter]. cbn [fst snd app] in *.
  rewrite last_states, <- H1, <- H2. reflexivity.
Qed.
Lemma sums_explicit s u : sum2 F s + sum2 F u =
  let '((x0, x1), (y0, y1)) := s in let '((u0, u1), (v0, v1)) := u in x0 + x1 + y0 + y1 + (u0 + u1 + v0 + v1).
Proof. destruct s as [[x0 x1] [y0 y1]], u as [[u0 u1] [v0 v1]]. unfold sum2. ring. Qed.
(** The relation of degree five has exactly one solution per input: the trace. *)
Lemma trace_rel_iff x y t : input F t = (x, y) -> (trace_rel F 5 J t <-> t = eval_with_trace F J x y).
Proof.
  intros Hi. destruct t as [i inter fin out]. cbn [input] in Hi. subst i. rewrite trace_eq. unfold trace_rel.
  cbn [input intermediate final output]. rewrite rounds_rel_iff.
  assert (E1 : (let '((x0, x1), (y0, y1)) := last inter (x, y) in
     let '((a, b), (c, e)) := j_mds F J in
     fin = ((a * x0 + b * x1, c * x0 + e * x1), (a * y1 + b * y0, c * y1 + e * y0))) <->
     fin = permute F (j_mds F J) (last inter (x, y))).
  { rewrite permute_explicit. destruct (last inter (x, y)) as [[? ?] [? ?]], (j_mds F J) as [[? ?] [? ?]]. reflexivity. }
  assert (E2 : (let '((x0, x1), (y0, y1)) := (x, y) in
     let '((u0, u1), (v0, v1)) := fin in out = x0 + x1 + y0 + y1 + (u0 + u1 + v0 + v1)) <->
     out = sum2 F (x, y) + sum2 F fin).
  { rewrite sums_explicit. destruct x, y, fin as [[? ?] [? ?]]. reflexivity. }
  rewrite E1, E2. split.
  - intros [-> [-> ->]]. reflexivity.
  - intros H. injection H as -> -> ->. auto.
Qed.
End Proofs.
