(** C60, for PLONK: the challenges of the verifier. *)
From Coq Require Import List ZArith NArith Bool Lia.
From Verif Require Import Base Field PField PolyModel KzgModel TurboModel PlonkModel PlonkAttack PlonkProps.
Import ListNotations.

Section Bind.
Context {F : PField} {G1 G2 GT : Mod F} (e : G1 -> G2 -> GT).
Local Notation tmsg := (tmsg G1).
Local Notation transcript := (list tmsg).
Local Notation vparams := (vparams G1).
Local Notation proof := (proof G1).

Lemma map_block {A} (f : A -> tmsg) (Hf : forall x y, f x = f y -> x = y) y1 y2 k1 k2 : (forall x, f x <> y1) -> (forall x, f x <> y2) ->
  forall c1 c2, map f c1 ++ y1 :: k1 = map f c2 ++ y2 :: k2 -> c1 = c2 /\ y1 = y2 /\ k1 = k2.
Proof.
  intros N1 N2. induction c1 as [|a c1 IH]; intros [|b c2] Q; cbn in Q.
  - injection Q. auto.
  - exfalso. apply (N1 b). injection Q. auto.
  - exfalso. apply (N2 a). injection Q. auto.
  - injection Q as E Q. apply Hf in E. subst b. destruct (IH _ Q) as [-> H]. auto.
Qed.
Lemma app_len {A} (a b c d : list A) : length a = length b -> a ++ c = b ++ d -> a = b /\ c = d.
Proof. revert b. induction a as [|x a IH]; intros [|y b] L Q; try discriminate; [auto|]. cbn in *. injection Q as -> Q. destruct (IH b) as [-> ->]; auto. Qed.
Lemma map_inj {A B} (f : A -> B) (Hf : forall x y, f x = f y -> x = y) a b : map f a = map f b -> a = b.
Proof. revert b. induction a as [|x a IH]; intros [|y b] Q; try discriminate; [auto|]. cbn in Q. injection Q as E Q. apply Hf in E. subst. f_equal. auto. Qed.

(** What the transcript says of the verifier parameters. *)
Definition hashed (vk : vparams) : nat * list G1 * list G1 * F * list F := (cs_size vk, cm_q vk, cm_s vk, vk_root vk, vk_k vk).
Definition shape (vk : vparams) : nat * nat * nat := (length (cm_q vk), length (cm_s vk), length (vk_k vk)).
(** The prover's messages before each challenge: the wires; the permutation product;
    the quotient; the evaluations. *)
Definition q_beta (t : transcript) (vk : vparams) (pi : list F) (ws : list G1) : transcript :=
  tr_init t vk pi ++ map TComm ws ++ [TDrawn 1].
Definition q_gamma t vk pi ws : transcript := q_beta t vk pi ws ++ [TDrawn 2].
Definition q_alpha t vk pi ws (z : G1) : transcript := q_gamma t vk pi ws ++ [TComm z; TDrawn 0].
Definition q_zeta t vk pi ws z (ts : list G1) : transcript := q_alpha t vk pi ws z ++ map TComm ts ++ [TDrawn 3].
Definition q_u t vk pi ws z ts (ew es : list F) (zw : F) : transcript :=
  q_zeta t vk pi ws z ts ++ map TElem ew ++ map TElem es ++ [TElem zw; TDrawn 4].
Definition q_batch t vk pi ws z ts ew es zw (n : nat) (zeta : F) : transcript :=
  q_u t vk pi ws z ts ew es zw ++ [TDomain 1; TFieldSize; TSize n; TElem zeta; TDrawn 0].

Ltac flat := unfold q_batch, q_u, q_zeta, q_alpha, q_gamma, q_beta, tr_init in *; repeat (rewrite <- !app_assoc in * || cbn [app] in * ).
Lemma start_inj t vk pi ws y k vk' pi' ws' y' k' : shape vk = shape vk' -> (forall x, TComm x <> y) -> (forall x, TElem x <> y) -> (forall x, TComm x <> y') -> (forall x, TElem x <> y') ->
  tr_init t vk pi ++ map TComm ws ++ y :: k = tr_init t vk' pi' ++ map TComm ws' ++ y' :: k' ->
  hashed vk = hashed vk' /\ pi = pi' /\ ws = ws' /\ y = y' /\ k = k'.
Proof.
  intros S Y1 Y2 Y1' Y2' Q. injection S as S1 S2 S3. unfold tr_init in Q. rewrite <- !app_assoc in Q. apply app_inv_head in Q. cbn [app] in Q. injection Q as E1 Q.
  apply app_len in Q; [|now rewrite !map_length]. destruct Q as [E2 Q]. apply map_inj in E2; [|congruence].
  apply app_len in Q; [|now rewrite !map_length]. destruct Q as [E3 Q]. apply map_inj in E3; [|congruence].
  injection Q as E4 Q.
  apply app_len in Q; [|now rewrite !map_length]. destruct Q as [E5 Q]. apply map_inj in E5; [|congruence].
  assert (T : forall (pi : list F) (ws : list G1) y k, (forall x, TElem x <> y) -> exists y0 k0, map TElem pi ++ map TComm ws ++ y :: k = map TElem pi ++ y0 :: k0 /\ (forall x, TElem x <> y0) /\ (map TComm ws ++ y :: k = y0 :: k0 :> transcript)).
  { clear. intros pi [|w ws] y k Hy; cbn [map app]; [exists y, k|exists (TComm w), (map TComm ws ++ y :: k)]; repeat split; auto. congruence. }
  destruct (T pi ws y k Y2) as [a1 [b1 [T1 [T2 T3]]]]. destruct (T pi' ws' y' k' Y2') as [a2 [b2 [T1' [T2' T3']]]].
  rewrite T1, T1' in Q. apply map_block in Q; [|congruence|assumption..]. destruct Q as [E6 [E7 E8]]. rewrite <- E7, <- E8, <- T3 in T3'.
  apply map_block in T3'; [|congruence|assumption..]. destruct T3' as [E9 [E10 E11]].
  unfold hashed. rewrite E1, E2, E3, E4, E5. auto 6.
Qed.

(** The verdict depends on the oracles only at six points, which determine everything
    sent before: for keys of the same shape, the hashed part of the key, the public
    inputs and all earlier messages of the prover. *)
Theorem C60_plonk_challenges_bind :
  forall t : transcript,
  (forall vk pi ws vk' pi' ws', shape vk = shape vk' -> q_beta t vk pi ws = q_beta t vk' pi' ws' -> hashed vk = hashed vk' /\ pi = pi' /\ ws = ws') /\
  (forall vk pi ws vk' pi' ws', shape vk = shape vk' -> q_gamma t vk pi ws = q_gamma t vk' pi' ws' -> hashed vk = hashed vk' /\ pi = pi' /\ ws = ws') /\
  (forall vk pi ws z vk' pi' ws' z', shape vk = shape vk' -> q_alpha t vk pi ws z = q_alpha t vk' pi' ws' z' -> hashed vk = hashed vk' /\ pi = pi' /\ ws = ws' /\ z = z') /\
  (forall vk pi ws z ts vk' pi' ws' z' ts', shape vk = shape vk' -> q_zeta t vk pi ws z ts = q_zeta t vk' pi' ws' z' ts' ->
     hashed vk = hashed vk' /\ pi = pi' /\ ws = ws' /\ z = z' /\ ts = ts') /\
  (forall vk pi ws z ts ew es zw vk' pi' ws' z' ts' ew' es' zw', shape vk = shape vk' -> length ew = length ew' ->
     q_u t vk pi ws z ts ew es zw = q_u t vk' pi' ws' z' ts' ew' es' zw' ->
     hashed vk = hashed vk' /\ pi = pi' /\ ws = ws' /\ z = z' /\ ts = ts' /\ ew = ew' /\ es = es' /\ zw = zw') /\
  (forall vk pi ws z ts ew es zw n zt vk' pi' ws' z' ts' ew' es' zw' n' zt', shape vk = shape vk' -> length ew = length ew' ->
     q_batch t vk pi ws z ts ew es zw n zt = q_batch t vk' pi' ws' z' ts' ew' es' zw' n' zt' ->
     hashed vk = hashed vk' /\ pi = pi' /\ ws = ws' /\ z = z' /\ ts = ts' /\ ew = ew' /\ es = es' /\ zw = zw' /\ n = n' /\ zt = zt') /\
  forall (draw draw' : transcript -> F) (cdraw cdraw' : nat -> transcript -> F) k size vk pi (pf : proof),
  (forall q, In q [q_beta t vk pi (pf_w pf); q_gamma t vk pi (pf_w pf); q_alpha t vk pi (pf_w pf) (pf_z pf); q_zeta t vk pi (pf_w pf) (pf_z pf) (pf_t pf);
                   q_u t vk pi (pf_w pf) (pf_z pf) (pf_t pf) (ev_w pf) (ev_s pf) (ev_zw pf)] -> cdraw size q = cdraw' size q) ->
  (let q := q_batch t vk pi (pf_w pf) (pf_z pf) (pf_t pf) (ev_w pf) (ev_s pf) (ev_zw pf) (cs_size vk + 2)
              (cdraw size (q_zeta t vk pi (pf_w pf) (pf_z pf) (pf_t pf))) in draw q = draw' q) ->
  verifier e draw cdraw t k size vk pi pf = verifier e draw' cdraw' t k size vk pi pf.
Proof.
  intros t.
  assert (NC : forall n x, (TComm x : tmsg) <> TDrawn n) by congruence. assert (NE : forall n x, (TElem x : tmsg) <> TDrawn n) by congruence.
  assert (Z : forall vk pi ws z ts k vk' pi' ws' z' ts' k', shape vk = shape vk' -> q_zeta t vk pi ws z ts ++ k = q_zeta t vk' pi' ws' z' ts' ++ k' ->
     hashed vk = hashed vk' /\ pi = pi' /\ ws = ws' /\ z = z' /\ ts = ts' /\ k = k').
  { intros vk pi ws z ts k vk' pi' ws' z' ts' k' S Q. unfold q_zeta, q_alpha, q_gamma, q_beta in Q. rewrite <- !app_assoc in Q. cbn [app] in Q.
    apply start_inj in Q; auto. destruct Q as [-> [-> [-> [_ Q]]]]. injection Q as -> Q. apply map_block in Q; [|congruence|auto..]. destruct Q as [-> [_ ->]]. auto 6. }
  assert (U : forall vk pi ws z ts ew es zw k vk' pi' ws' z' ts' ew' es' zw' k', shape vk = shape vk' -> length ew = length ew' ->
     q_u t vk pi ws z ts ew es zw ++ k = q_u t vk' pi' ws' z' ts' ew' es' zw' ++ k' ->
     hashed vk = hashed vk' /\ pi = pi' /\ ws = ws' /\ z = z' /\ ts = ts' /\ ew = ew' /\ es = es' /\ zw = zw' /\ k = k').
  { intros vk pi ws z ts ew es zw k vk' pi' ws' z' ts' ew' es' zw' k' S L Q. unfold q_u in Q. rewrite <- !app_assoc in Q.
    apply Z in Q; [|exact S]. destruct Q as [-> [-> [-> [-> [-> Q]]]]]. apply app_len in Q; [|now rewrite !map_length]. destruct Q as [E Q]. apply map_inj in E; [|congruence]. subst ew'.
    assert (T : forall (l : list F) x k, map TElem l ++ [TElem x; TDrawn 4] ++ k = map TElem (l ++ [x]) ++ (TDrawn 4 : tmsg) :: k) by (intros; rewrite map_app, <- app_assoc; reflexivity).
    rewrite !T in Q. apply map_block in Q; [|congruence|auto..]. destruct Q as [E [_ ->]]. apply app_inj_tail in E. destruct E as [-> ->]. auto 10. }
  split; [|split; [|split; [|split; [|split; [|split]]]]].
  - intros vk pi ws vk' pi' ws' S Q. unfold q_beta in Q. apply start_inj in Q; auto. destruct Q as [-> [-> [-> _]]]. auto.
  - intros vk pi ws vk' pi' ws' S Q. unfold q_gamma, q_beta in Q. rewrite <- !app_assoc in Q. cbn [app] in Q. apply start_inj in Q; auto. destruct Q as [-> [-> [-> _]]]. auto.
  - intros vk pi ws z vk' pi' ws' z' S Q. unfold q_alpha, q_gamma, q_beta in Q. rewrite <- !app_assoc in Q. cbn [app] in Q. apply start_inj in Q; auto. destruct Q as [-> [-> [-> [_ Q]]]]. injection Q as ->. auto.
  - intros vk pi ws z ts vk' pi' ws' z' ts' S Q. rewrite <- (app_nil_r (q_zeta _ _ _ _ _ _)), <- (app_nil_r (q_zeta t vk' _ _ _ _)) in Q. apply Z in Q; [|exact S]. destruct Q as [-> [-> [-> [-> [-> _]]]]]. auto 6.
  - intros vk pi ws z ts ew es zw vk' pi' ws' z' ts' ew' es' zw' S L Q. rewrite <- (app_nil_r (q_u _ _ _ _ _ _ _ _ _)), <- (app_nil_r (q_u t vk' _ _ _ _ _ _ _)) in Q. apply U in Q; [|exact S|exact L].
    destruct Q as [-> [-> [-> [-> [-> [-> [-> [-> _]]]]]]]]. auto 10.
  - intros vk pi ws z ts ew es zw n zt vk' pi' ws' z' ts' ew' es' zw' n' zt' S L Q. unfold q_batch in Q. apply U in Q; [|exact S|exact L].
    destruct Q as [-> [-> [-> [-> [-> [-> [-> [-> Q]]]]]]]]. injection Q as -> ->. auto 12.
  - intros draw draw' cdraw cdraw' k size vk pi pf Q1 Q2.
    assert (E : compute_challenges cdraw (tr_init t vk pi) size pf = compute_challenges cdraw' (tr_init t vk pi) size pf /\
      compute_challenges cdraw (tr_init t vk pi) size pf =
      (mkCh (cdraw size (q_beta t vk pi (pf_w pf))) (cdraw size (q_gamma t vk pi (pf_w pf))) (cdraw size (q_alpha t vk pi (pf_w pf) (pf_z pf)))
        (cdraw size (q_zeta t vk pi (pf_w pf) (pf_z pf) (pf_t pf))) (cdraw size (q_u t vk pi (pf_w pf) (pf_z pf) (pf_t pf) (ev_w pf) (ev_s pf) (ev_zw pf))),
       q_u t vk pi (pf_w pf) (pf_z pf) (pf_t pf) (ev_w pf) (ev_s pf) (ev_zw pf))).
    { unfold compute_challenges, get.
      assert (B1 : (tr_init t vk pi ++ map TComm (pf_w pf)) ++ [TDrawn 1] = q_beta t vk pi (pf_w pf)) by (unfold q_beta; now rewrite <- app_assoc).
      rewrite B1. change (q_beta t vk pi (pf_w pf) ++ [TDrawn 2]) with (q_gamma t vk pi (pf_w pf)).
      assert (B2 : (q_gamma t vk pi (pf_w pf) ++ [TComm (pf_z pf)]) ++ [TDrawn 0] = q_alpha t vk pi (pf_w pf) (pf_z pf)) by (unfold q_alpha; now rewrite <- app_assoc).
      rewrite B2.
      assert (B3 : (q_alpha t vk pi (pf_w pf) (pf_z pf) ++ map TComm (pf_t pf)) ++ [TDrawn 3] = q_zeta t vk pi (pf_w pf) (pf_z pf) (pf_t pf)) by (unfold q_zeta; now rewrite <- app_assoc).
      rewrite B3.
      assert (B4 : (q_zeta t vk pi (pf_w pf) (pf_z pf) (pf_t pf) ++ map TElem (ev_w pf) ++ map TElem (ev_s pf) ++ [TElem (ev_zw pf)]) ++ [TDrawn 4] =
        q_u t vk pi (pf_w pf) (pf_z pf) (pf_t pf) (ev_w pf) (ev_s pf) (ev_zw pf)) by (unfold q_u; now rewrite <- !app_assoc).
      rewrite B4. split; [|reflexivity]. rewrite !Q1 by (cbn [In]; auto 10). reflexivity. }
    destruct E as [E1 E2]. unfold verifier. rewrite <- E1, E2. cbn zeta in Q2.
    assert (D : forall cs vs zt, zt = cdraw size (q_zeta t vk pi (pf_w pf) (pf_z pf) (pf_t pf)) ->
      batch draw (q_u t vk pi (pf_w pf) (pf_z pf) (pf_t pf) (ev_w pf) (ev_s pf) (ev_zw pf)) cs (cs_size vk + 2) zt vs =
      batch draw' (q_u t vk pi (pf_w pf) (pf_z pf) (pf_t pf) (ev_w pf) (ev_s pf) (ev_zw pf)) cs (cs_size vk + 2) zt vs).
    { intros cs vs zt ->. unfold batch, challenge, init_batch. rewrite <- app_assoc. cbn [app]. unfold q_batch in Q2. now rewrite Q2. }
    cbn [zeta]. destruct (first_lagrange _ _) as [zl| |]; cbn [bind]; [|reflexivity..].
    destruct (eval_pi_poly _ _ _ _) as [piz| |]; cbn [bind]; [|reflexivity..].
    destruct (r_eval_zeta _ _ _ _) as [r| |]; cbn [bind]; [|reflexivity..].
    destruct (r_commitment _ _ _ _ _ _ _ _ _ _) as [cm| |]; cbn [bind]; [|reflexivity..].
    now rewrite D.
Qed.

(** The rest of the key is not hashed: the selector of boolean constraints, the
    positions of the public inputs and their Lagrange constants can change without
    changing any point. *)
Theorem C60_plonk_key_bound_refuted :
  forall (t : transcript) vk qb idx lcs pi ws z ts ew es zw n zt,
  q_batch t (mkVP (cm_q vk) (cm_s vk) qb (vk_k vk) (vk_root vk) (cs_size vk) idx lcs) pi ws z ts ew es zw n zt = q_batch t vk pi ws z ts ew es zw n zt.
Proof. reflexivity. Qed.
End Bind.
Print Assumptions C60_plonk_challenges_bind. Print Assumptions C60_plonk_key_bound_refuted.

(** The verdict does depend on each of the oracles: the proof of PlonkProps (two gates
    over the field of 97 elements) is accepted under the oracles it was made for and
    refused when the batching challenge or any of the first four answers is another one.
    The fifth one only weighs two equations, which the honest proof meets both; it decides
    about proofs that meet only their sum, such as the forgery of PlonkProps.  The key
    with other public positions is another key that has the same points. *)
Section Examples.
Let z (x : Z) : P97 := fofZ x.
Let G := self_mod P97.
Let e (a b : G) : G := fmul (a : P97) b.
Let K := setup (G1 := G) (G2 := G) (z 1 : G) (z 1 : G) 6 (z 20).
Let mulgate : gate P97 := mkGate (z 0) (z 0) (z 0) (z 0) (z 1) (z 0) (z 0) (z 0) (z 0) (z 0) (z 0) (z 0) (z 1) 1 2 0 0 3 false None.
Let pubgate : gate P97 := mkGate (z 0) (z 0) (z 0) (z 0) (z 0) (z 0) (z 0) (z 0) (z 0) (z 0) (z 0) (z 0) (z 1) 0 0 0 0 3 false (Some 3%nat).
Let gs := [mulgate; pubgate].
Let ks := [z 1; z 5; z 7; z 10; z 13].
Let dr (d : Z) (t : list (tmsg G)) : P97 := z (3 + d + Z.of_nat (length t)).
Let cd (which : nat) (_ : nat) (t : list (tmsg G)) : P97 :=
  z (11 + Z.of_nat (length t) + match rev t with TDrawn k :: _ => if Nat.eqb k which then 1 else 0 | _ => 0 end).
Let rnd (i : nat) : P97 := z (7 + 5 * Z.of_nat i).
Let wit := [z 0; z 4; z 6; z 24].
Example C60_plonk_challenges_matter :
  bind (indexer (z 5) 97 gs 4 K None ks) (fun pk =>
  bind (prover (dr 0) (cd 9) rnd [] K None gs 4 pk wit) (fun pf =>
  Ok (map (fun w => verifier e (dr 0) (cd w) [] K 2 (pk_vk pk) [z 24] pf) [9; 0; 1; 2; 3; 4]%nat,
      verifier e (dr 1) (cd 9) [] K 2 (pk_vk pk) [z 24] pf))) = Ok ([Ok tt; Err; Err; Err; Err; Ok tt], Err).
Proof. vm_compute. reflexivity. Qed.
Example C60_plonk_fifth_challenge_matters :
  bind (indexer (z 5) 97 gs 4 K None ks) (fun pk =>
  bind (forge (z 1 : G) (dr 0) (cd 9) [] 2 (pk_vk pk) [z 77] (mkPf (F := P97) (G1 := G) [z 3; z 1; z 4; z 1; z 5] [z 9] (z 2 : G) [z 6; z 5; z 3; z 5; z 8] (z 9) [z 7; z 9; z 3; z 2] (z 0 : G) (z 0 : G))) (fun pf =>
  Ok (map (fun w => verifier e (dr 0) (cd w) [] K 2 (pk_vk pk) [z 77] pf) [9; 4]%nat))) = Ok [Ok tt; Err].
Proof. vm_compute. reflexivity. Qed.
Example C60_plonk_key_case : exists vk vk' : vparams G, vk <> vk' /\ pub_idx vk <> pub_idx vk' /\
  forall t pi ws z ts ew es zw n zt, q_batch t vk pi ws z ts ew es zw n zt = q_batch t vk' pi ws z ts ew es zw n zt.
Proof.
  exists (mkVP (F := P97) (G1 := G) [] [] (z 3 : G) [] (z 1) 2 [0%nat] []), (mkVP (F := P97) (G1 := G) [] [] (z 3 : G) [] (z 1) 2 [1%nat] []).
  split; [intros Q; injection Q; discriminate|]. split; [discriminate|reflexivity].
Qed.
End Examples.
