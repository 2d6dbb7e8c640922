(** Property theorems for the Rescue hash (C39, C40). *)
From Coq Require Import List ZArith NArith Bool Lia.
From Verif Require Import Base Field PField Power Primality Zp RescueModel RescueSpec RescueProofs RescueLemmas
  TurboModel TurboSpec TurboProofs TurboHonest TurboKit.
Import ListNotations.
Local Open Scope F_scope.

(** C39: whatever the system built before, every assignment satisfying it after
    the gadget has been added gives the four outputs the native hash of the values
    of the four inputs. *)
Theorem C39_gadget_outputs_native_hash :
  forall (a b d e : nat) (c : tcs BLS) (w : nat -> BLS),
  let run := rescue_hash BLS bls_rescue gadget_alpha_inv [a; b; d; e] c in
  sat (snd run) w ->
  length (fst run) = 4%nat /\
  rescue BLS bls_rescue [w a; w b; w d; w e] = Ok (map w (fst run)).
Proof.
  intros a b d e c w run H. split.
  - apply (rescue_hash_len BLS bls_rescue bls_rescue_ok). reflexivity.
  - apply (rescue_hash_sound BLS bls_rescue bls_rescue_ok gadget_alpha_inv [a; b; d; e] gadget_exp_inv eq_refl) in H.
    apply H.
Qed.
Print Assumptions C39_gadget_outputs_native_hash.

(** C39, the honest run: on any satisfied system the gadget keeps the prover's own
    assignment satisfying, changes no earlier value, and stores the native hash in
    its outputs. *)
Theorem C39_gadget_completes :
  forall (vs : list nat) (c : tcs BLS), Inv c -> length vs = 4%nat -> Forall (fun v => (v < nvars c)%nat) vs ->
  let run := rescue_hash BLS bls_rescue gadget_alpha_inv vs c in
  sat (snd run) (val (snd run)) /\ Inv (snd run) /\ extends c (snd run) /\
  rescue BLS bls_rescue (map (val c) vs) = Ok (map (val (snd run)) (fst run)).
Proof.
  intros vs c HI HL HV run.
  assert (V : Forall2 (has BLS c) vs (map (val c) vs)).
  { clear HL run. induction HV as [|v vs Hv HV IH]; constructor; [split; [exact Hv|reflexivity]|exact IH]. }
  destruct (rescue_len BLS bls_rescue bls_rescue_ok (map (val c) vs)) as [h [Hh HR]].
  { unfold vec4. now rewrite map_length. }
  destruct (ha_rescue_hash BLS bls_rescue bls_rescue_ok gadget_alpha_inv vs _ h c gadget_exp_inv HI V HL HR)
    as [I1 [E1 O1]].
  fold run in I1, E1, O1. split; [apply I1|]. split; [exact I1|]. split; [exact E1|].
  rewrite HR. f_equal. symmetry. now apply (has_map BLS).
Qed.
Print Assumptions C39_gadget_completes.

(** The two theorems together: for every four field elements there is a satisfied
    system containing the gadget. *)
Lemma hash_system (xs : list BLS) : length xs = 4%nat ->
  let vars := new_variables BLS xs (cs_new BLS) in
  let run := rescue_hash BLS bls_rescue gadget_alpha_inv (fst vars) (snd vars) in
  sat (snd run) (val (snd run)) /\ rescue BLS bls_rescue xs = Ok (map (val (snd run)) (fst run)).
Proof.
  intros HL vars run.
  assert (I0 : Inv (cs_new BLS)).
  { unfold Inv, cs_new, conv, val, sat. cbn. repeat split; try constructor. }
  destruct (ha_news BLS (cs_new BLS) xs I0) as [I1 [E1 V1]]. fold vars in I1, E1, V1.
  assert (L : length (fst vars) = 4%nat) by (apply f2len in V1; lia).
  destruct (C39_gadget_completes (fst vars) (snd vars) I1 L) as [S1 [_ [_ R1]]].
  - eapply has_all_lt; exact V1.
  - split; [exact S1|]. now rewrite (has_map BLS _ _ _ V1) in R1.
Qed.
Example C39_case : length [1; 1 + 1; 0; 1 : BLS] = 4%nat.
Proof. reflexivity. Qed.

(** C40: the form computing its round keys online equals the textbook form with
    the precomputed round keys of the zero key, and it panics exactly on inputs
    of the wrong length. *)
Theorem C40_round_key_forms_agree :
  forall s : list BLS,
  (length s = 4%nat ->
   rescue BLS bls_rescue s =
   Ok (keyed BLS (MDS BLS bls_rescue) bls_alpha_inv 5 (key_scheduling BLS bls_rescue [0; 0; 0; 0]) s)) /\
  (length s <> 4%nat -> rescue BLS bls_rescue s = Panic).
Proof.
  intros s. split; intros H.
  - now apply (rescue_keyed BLS bls_rescue bls_rescue_ok).
  - unfold rescue. change (state_size BLS bls_rescue) with 4%nat. destruct (Nat.eqb_spec (length s) 4); [contradiction|reflexivity].
Qed.
Print Assumptions C40_round_key_forms_agree.

(** C40: for every key of four elements, the schedule yields 25 round keys of four
    elements and the permutation they key is a bijection of the states. *)
Theorem C40_keyed_bijection :
  forall key : list BLS, length key = 4%nat ->
  length (key_scheduling BLS bls_rescue key) = 25%nat /\
  bijective4 BLS (keyed BLS (MDS BLS bls_rescue) bls_alpha_inv 5 (key_scheduling BLS bls_rescue key)).
Proof.
  intros key H. split.
  - rewrite key_scheduling_eq. cbn [length]. rewrite key_loop_len. reflexivity.
  - now apply (keyed_schedule_bij BLS bls_rescue bls_rescue_ok).
Qed.
Print Assumptions C40_keyed_bijection.

(** C40: hence the hash permutation itself: every state has exactly one preimage. *)
Theorem C40_rescue_bijection :
  forall t : list BLS, length t = 4%nat -> exists! s, length s = 4%nat /\ rescue BLS bls_rescue s = Ok t.
Proof.
  intros t Ht. destruct (keyed_schedule_bij BLS bls_rescue bls_rescue_ok [0;0;0;0] eq_refl) as [_ HB].
  destruct (HB t Ht) as [s [[Hs E] U]]. exists s. split.
  - split; [exact Hs|]. rewrite (rescue_keyed BLS bls_rescue bls_rescue_ok s Hs). now f_equal.
  - intros s' [Hs' E']. apply U. split; [exact Hs'|].
    rewrite (rescue_keyed BLS bls_rescue bls_rescue_ok s' Hs') in E'. now apply Ok_inj in E'.
Qed.
Print Assumptions C40_rescue_bijection.

(** A computed case over a small field (fifth roots exist modulo 103): two rounds. *)
Lemma prime_103 : Znumtheory.prime 103.
Proof. apply small_prime_sound. reflexivity. Qed.
Definition P103 : PField := ZpP 103 prime_103.
Definition toy_rescue : rescue_instance P103 :=
  let z := fofZ (F := P103) in
  mkRescue P103 (map (map z) [[1;1;0;0]; [0;1;1;0]; [0;0;1;1]; [1;0;0;2]]%Z) (map z [1;2;3;4]%Z) (map z [5;6;7;8]%Z)
           (map (map z) [[2;0;0;1]; [0;1;0;0]; [3;0;1;0]; [0;0;0;1]]%Z) 4 5 41 2.
Example C40_case :
  let s := map (fofZ (F := P103)) [9; 8; 7; 6]%Z in
  match rescue P103 toy_rescue s with Ok l => map toZ l | _ => [] end = [19; 47; 31; 13]%Z /\
  map toZ (keyed P103 (MDS P103 toy_rescue) 41 5 (key_scheduling P103 toy_rescue (repeat f0 4)) s) = [19; 47; 31; 13]%Z.
Proof. vm_compute. split; reflexivity. Qed.
