(** C60, for anonymous credentials: the challenges of the disclosure proofs. *)
From Coq Require Import List ZArith NArith Bool Lia.
From Verif Require Import Base Field PField AcModel AcProps.
Import ListNotations.

Section Bind.
Context {F : Field} {G1 G2 GT : Mod F} (e : G1 -> G2 -> GT) (base1 : G1) (base2 : G2).
Local Notation msg := (msg G1 G2).
Local Notation transcript := (list msg).
Local Notation oracle := (transcript -> F).

Lemma map_block {A} (f : A -> msg) (Hf : forall x y, f x = f y -> x = y) y1 y2 k1 k2 : (forall x, f x <> y1) -> (forall x, f x <> y2) ->
  forall c1 c2, map f c1 ++ y1 :: k1 = map f c2 ++ y2 :: k2 -> c1 = c2 /\ y1 = y2 /\ k1 = k2.
Proof.
  intros N1 N2. induction c1 as [|a c1 IH]; intros [|b c2] Q; cbn in Q.
  - injection Q. auto.
  - exfalso. apply (N1 b). injection Q. auto.
  - exfalso. apply (N2 a). injection Q. auto.
  - injection Q as E Q. apply Hf in E. subst b. destruct (IH _ Q) as [-> H]. auto.
Qed.
Lemma pair_block (f : G1 -> msg) (Hf : forall x y, f x = f y -> x = y) y1 y2 k1 k2 : (forall x, f x <> y1) -> (forall x, f x <> y2) ->
  forall c1 c2, ct_elems f c1 ++ y1 :: k1 = ct_elems f c2 ++ y2 :: k2 -> c1 = c2 /\ y1 = y2 /\ k1 = k2.
Proof.
  intros N1 N2. induction c1 as [|[a a'] c1 IH]; intros [|[b b'] c2] Q; cbn [ct_elems flat_map app fst snd] in Q.
  - injection Q. auto.
  - exfalso. apply (N1 b). injection Q. auto.
  - exfalso. apply (N2 a). injection Q. auto.
  - injection Q as E E' Q. apply Hf in E. apply Hf in E'. subst b b'. destruct (IH _ Q) as [-> H]. auto.
Qed.

(** ** Opening a commitment with revealed attributes *)
(** The verdict depends on the random oracle at one point only, and this point
    determines the issuer key, the credential commitment and the first message (but
    not the revealed attributes, see C25_late_attributes_refuted). *)
Theorem C60_reveal_challenge_binds :
  exists q : issuer_pk G1 G2 -> sig G1 -> G2 -> transcript,
  (forall p cm b p' cm' b', q p cm b = q p' cm' b' -> p = p' /\ cm = cm' /\ b = b') /\
  forall (chal chal' : oracle) p cm pf attrs, chal (q p cm (blinding pf)) = chal' (q p cm (blinding pf)) ->
  verify_open e base1 base2 chal p cm pf attrs = verify_open e base1 base2 chal' p cm pf attrs.
Proof.
  exists (fun p cm b => init_pok base1 base2 [Tag 2] p cm ++ [Com2 b]). split.
  - intros [a1 a2 a3 a4 a5] [s1 s2] b [a1' a2' a3' a4' a5'] [s1' s2'] b'. unfold init_pok. cbn [sigma1 sigma2 zz1 gen2 xx2 zz2 yy2]. rewrite <- !app_assoc. cbn [app].
    intros Q. injection Q as -> -> -> -> -> -> Q. apply map_block in Q; [|congruence..]. destruct Q as [-> [E _]]. injection E as ->. auto.
  - intros chal chal' p cm pf attrs Q. unfold verify_open. now rewrite Q.
Qed.
(** For the proof that a commitment is well formed the point also determines the
    message it signs. *)
Theorem C60_commitment_challenge_binds :
  exists q : issuer_pk G1 G2 -> sig G1 -> list N -> G2 -> transcript,
  (forall p cm m b p' cm' m' b', q p cm m b = q p' cm' m' b' -> p = p' /\ cm = cm' /\ m = m' /\ b = b') /\
  forall (chal chal' : oracle) p cm pf m, chal (q p cm m (blinding pf)) = chal' (q p cm m (blinding pf)) ->
  check_comm e base1 base2 chal p cm pf m = check_comm e base1 base2 chal' p cm pf m.
Proof.
  exists (fun p cm m b => (init_pok base1 base2 [Tag 1] p cm ++ [Bytes m]) ++ [Com2 b]). split.
  - intros [a1 a2 a3 a4 a5] [s1 s2] m b [a1' a2' a3' a4' a5'] [s1' s2'] m' b'. unfold init_pok. cbn [sigma1 sigma2 zz1 gen2 xx2 zz2 yy2]. rewrite <- !app_assoc. cbn [app].
    intros Q. injection Q as -> -> -> -> -> -> Q. apply map_block in Q; [|congruence..]. destruct Q as [-> [E Q]]. injection E as ->. injection Q as ->. auto.
  - intros chal chal' p cm pf m Q. unfold check_comm. now rewrite Q.
Qed.
(** For the confidential disclosure it determines the issuer key, the encryption key,
    the commitment, all ciphertexts, the message and the whole first message. *)
Theorem C60_confidential_challenge_binds :
  exists q : issuer_pk G1 G2 -> G1 -> sig G1 -> list (G1 * G1) -> list N -> list (G1 * G1) -> G2 -> transcript,
  (forall p ek cm cts m cs b p' ek' cm' cts' m' cs' b', q p ek cm cts m cs b = q p' ek' cm' cts' m' cs' b' ->
     p = p' /\ ek = ek' /\ cm = cm' /\ cts = cts' /\ m = m' /\ cs = cs' /\ b = b') /\
  forall (chal chal' : oracle) p ek map_ cm cts pf m,
  chal (q p ek cm cts m (cm_ct pf) (blinding (cac pf))) = chal' (q p ek cm cts m (cm_ct pf) (blinding (cac pf))) ->
  confidential_verify_open e base1 base2 chal p ek map_ cm cts pf m = confidential_verify_open e base1 base2 chal' p ek map_ cm cts pf m.
Proof.
  exists (fun p ek cm cts m cs b => (cac_init base1 base2 [Tag 3] p ek cm cts ++ [Bytes m]) ++ ct_elems Com1 cs ++ [Com2 b]). split.
  - intros [a1 a2 a3 a4 a5] ek [s1 s2] cts m cs b [a1' a2' a3' a4' a5'] ek' [s1' s2'] cts' m' cs' b'. unfold cac_init.
    cbn [sigma1 sigma2 zz1 gen2 xx2 zz2 yy2]. rewrite <- !app_assoc. cbn [app].
    intros Q. injection Q as -> -> -> -> Q.
    apply map_block in Q; [|congruence..]. destruct Q as [-> [E Q]]. injection E as ->. injection Q as -> -> Q.
    apply pair_block in Q; [|congruence..]. destruct Q as [-> [E Q]]. injection E as ->.
    apply pair_block in Q; [|congruence..]. destruct Q as [-> [E Q]]. injection E as ->. auto 10.
  - intros chal chal' p ek map_ cm cts pf m Q. unfold confidential_verify_open, confidential_verify_pok. now rewrite Q.
Qed.
End Bind.
Print Assumptions C60_reveal_challenge_binds. Print Assumptions C60_commitment_challenge_binds. Print Assumptions C60_confidential_challenge_binds.

(** The verdicts do depend on the challenge: in the groups modulo 101 of AcProps the same
    disclosures are accepted under the oracle they were made for and refused under
    another one, and under that oracle when the signed message is another one. *)
Section Examples.
Let n (x : Z) : P101 := fofZ x.
Let G := self_mod P101.
Let e (a b : G) : G := fmul (a : P101) b.
Let b1 : G := n 1.
Let keys := issuer_keygen (F := P101) (G1 := G) (G2 := G) (n 7) (n 9) (n 3 : G) (n 5 : G) [n 11; n 12; n 13].
Let ipk := snd keys.
Let user := user_keygen ipk (n 21).
Let attrs := [n 31; n 32; n 33].
Let draws (k : nat) : rng (F := P101) := fun i => n (Z.of_nat (i * i + k)).
Let weight (m : msg G G) : Z := match m with Bytes b => 7 * Z.of_N (fold_left N.add b 0%N) | _ => 1 end.
Let ch (k : Z) : AcModel.oracle (F := P101) (G1 := G) (G2 := G) := fun t => n (k + fold_left (fun a m => a + weight m) t 0)%Z.
Let rd := mkRand (n 17) (n 19).
Example C60_disclosure_challenge_matters :
  match grant_credential (n 4) (fst keys) (snd user) attrs with
  | Ok s => let cm := comm_new s rd in
    let at_ := [Revealed (n 31); Hidden None; Revealed (n 33)] in let ek : G := n 50 in
    match commit b1 b1 (ch 3) (draws 2) (fst user) (mkCred s attrs ipk) rd [6%N],
          open_comm b1 b1 (ch 3) (draws 5) (fst user) (mkCred s attrs ipk) cm rd [true; false; true],
          confidential_open_comm b1 b1 (ch 3) (draws 5) (fst user) (mkCred s attrs ipk) cm rd [true; false; true] ek [1%N] with
    | Ok (cm', mpf), Ok pf, Ok (cts, cpf) =>
        isok (check_comm e b1 b1 (ch 3) ipk cm' mpf [6%N]) && iserr (check_comm e b1 b1 (ch 4) ipk cm' mpf [6%N]) &&
        iserr (check_comm e b1 b1 (ch 3) ipk cm' mpf [8%N]) &&
        isok (verify_open e b1 b1 (ch 3) ipk cm pf at_) && iserr (verify_open e b1 b1 (ch 4) ipk cm pf at_) &&
        isok (confidential_verify_open e b1 b1 (ch 3) ipk ek [true; false; true] cm cts cpf [1%N]) &&
        iserr (confidential_verify_open e b1 b1 (ch 4) ipk ek [true; false; true] cm cts cpf [1%N]) &&
        iserr (confidential_verify_open e b1 b1 (ch 3) ipk ek [true; false; true] cm cts cpf [2%N])
    | _, _, _ => false end
  | _ => false end = true.
Proof. vm_compute. reflexivity. Qed.
End Examples.
