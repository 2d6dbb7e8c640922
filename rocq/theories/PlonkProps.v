(** C22 and C55: the PLONK indexer, prover and verifier. *)
From Coq Require Import List Arith NArith ZArith Lia Bool Permutation Field Ring.
From Verif Require Import Base Field Primality PField Power TurboModel TurboSpec PermModel PermSpec PermProps PolyModel PolySpec PolyProofs PolyLemmas PolyFft PolyProps KzgModel KzgSpec KzgProofs KzgProps PlonkModel PlonkSpec PlonkPoly PlonkProofs PlonkCore PlonkHonest PlonkComplete PlonkSound PlonkAttack PlonkExact.
Import ListNotations.
Local Open Scope F_scope.

Section Props.
Context {F : PField} {G1 G2 GT : Mod F} (e : G1 -> G2 -> GT) (base1 : G1) (base2 : G2) (pairing : pairing_for e base2).
Context (draw : list (tmsg G1) -> F) (cdraw : nat -> list (tmsg G1) -> F).
Add Field Fpp : (f_th F).
Notation setup := (setup base1 base2).

Lemma wires_lt nv (gs : list (gate F)) : (forall g, In g gs -> wire_lt nv g) -> forall x, In x (wires gs) -> (x < nv)%nat.
Proof.
  intros H x Hx. unfold wires in Hx. rewrite !in_app_iff, !in_map_iff in Hx.
  destruct Hx as [[g [<- I]]|[[g [<- I]]|[[g [<- I]]|[[g [<- I]]|[g [<- I]]]]]]; apply H in I; destruct I as [[? [? [? [? ?]]]] _]; assumption.
Qed.
(** ** The group of a generator *)
(** The indexer's group is built exactly for the elements of an order within the bound, and is
    the list of all powers. *)
Lemma build_loop_inv (w : F) k : forall i l, (0 < i)%nat -> (forall d, (0 < d < i)%nat -> fpow w d <> 1) -> build_loop k w (fpow w i) = Ok l ->
  exists n, (i <= n <= i + k)%nat /\ primitive n w /\ l = map (fpow w) (seq i (n - i)).
Proof.
  induction k as [|k IH]; intros i l Hi D; cbn [build_loop]; destruct (feqb_spec (fpow w i) 1) as [E|E]; try discriminate.
  1,2: intros Q; injection Q as <-; exists i; split; [lia|]; split; [split; assumption|]; now rewrite Nat.sub_diag.
  replace (fpow w i * w) with (fpow w (S i)) by (cbn [fpow]; ring). destruct (build_loop k w (fpow w (S i))) as [l'| |] eqn:Q; [|discriminate..]. cbn [bind]. intros X. injection X as <-.
  apply IH in Q; [|lia|intros d Hd; destruct (Nat.eq_dec d i) as [->|]; [exact E|apply D; lia]]. destruct Q as [n [Hn [P ->]]]. exists n. split; [lia|]. split; [exact P|]. replace (n - i)%nat with (S (n - S i)) by lia. reflexivity.
Qed.
Lemma build_loop_more (w : F) n : primitive n w -> forall k i, (0 < i <= n)%nat -> (n <= i + k)%nat ->
  build_loop k w (fpow w i) = Ok (map (fpow w) (seq i (n - i))).
Proof.
  intros P. induction k as [|k IH]; intros i Hi Hk; cbn [build_loop]; destruct (feqb_spec (fpow w i) 1) as [E|E].
  - assert (i = n) as -> by lia. now rewrite Nat.sub_diag.
  - exfalso. apply E. assert (i = n) as -> by lia. apply P.
  - assert (i = n) as ->; [|now rewrite Nat.sub_diag]. destruct (Nat.eq_dec i n) as [|N]; [assumption|]. exfalso. apply (proj2 P i); [lia|exact E].
  - replace (fpow w i * w) with (fpow w (S i)) by (cbn [fpow]; ring). assert (i <> n) by (intros ->; apply E, P). rewrite IH by lia. cbn [bind]. replace (n - i)%nat with (S (n - S i)) by lia. reflexivity.
Qed.
Theorem C22_group (w : F) (m : nat) l : (0 < m)%nat ->
  (build_group w m = Ok l <-> exists n, (0 < n <= m)%nat /\ primitive n w /\ l = map (fpow w) (seq 0 n)).
Proof.
  intros Hm. unfold build_group. assert (W : w = fpow w 1) by (cbn [fpow]; ring). rewrite W at 2. split.
  - destruct (build_loop _ _ _) as [l'| |] eqn:Q; [|discriminate..]. cbn [bind]. intros X. injection X as <-. apply build_loop_inv in Q; [|lia|intros; lia]. destruct Q as [n [Hn [P ->]]]. exists n. split; [lia|]. split; [exact P|].
    destruct n as [|n]; [lia|]. cbn [seq map fpow]. now rewrite Nat.sub_succ, Nat.sub_0_r.
  - intros [n [Hn [P ->]]]. rewrite (build_loop_more w n P) by lia. cbn [bind]. destruct n as [|n]; [lia|]. cbn [seq map fpow]. now rewrite Nat.sub_succ, Nat.sub_0_r.
Qed.
Theorem C22_group_refused (w : F) (m : nat) : (0 < m)%nat -> (forall n, (0 < n <= m)%nat -> ~ primitive n w) -> build_group w m = Err.
Proof.
  intros Hm N. destruct (build_group w m) as [l| |] eqn:Q; [|reflexivity|].
  - apply C22_group in Q; [|exact Hm]. destruct Q as [n [Hn [P _]]]. now apply N in P.
  - exfalso. unfold build_group in Q. assert (X : forall k c, build_loop k w c <> Panic) by (induction k as [|k IH]; intros c; cbn [build_loop]; destruct (feqb c 1); try discriminate; specialize (IH (c * w)); destruct (build_loop k w (c * w)); cbn; congruence).
    specialize (X (m - 1)%nat w). destruct (build_loop _ _ _); cbn in Q; congruence.
Qed.
(** ** Honest proofs are accepted *)
(** For every circuit of a supported size over any field with the needed root of unity, every
    satisfying assignment, every randomness and every outcome of the challenges outside the
    group: the indexer succeeds, and either the prover's proof is accepted for the public
    values of the assignment, or the prover panics because a denominator of the permutation
    product is zero (for each first challenge [b], at most 5n values of the second). *)
Theorem C22_honest gen order (gs : list (gate F)) nv N s lag0 ks wm w rnd t0 :
  let n := length gs in let m := quot_eval_dom_size n in let om := fpow wm (m / n) in
  supported n -> supported m -> (N.of_nat m < 2 ^ 32)%N ->
  nth_root_of_unity gen order m = Ok (Some wm) -> primitive m wm ->
  length ks = 5%nat -> nth 0 ks 0 = 1 -> nth 1 ks 0 <> 0 -> fpow (nth 1 ks 0) m <> 1 ->
  (n + 2 <= N)%nat -> lagrange_ready base1 s n om (usable lag0 n) ->
  (forall g, In g gs -> wire_lt nv g) -> length w = nv ->
  (forall g, In g gs -> gate_eq (fun v => nth v w 0) g /\ gate_bool (fun v => nth v w 0) g) ->
  (forall t, fpow (cdraw n t) n <> 1) ->
  exists pk, indexer gen order gs nv (setup N s) lag0 ks = Ok pk /\
  ((exists pf, prover draw cdraw rnd t0 (setup N s) lag0 gs nv pk w = Ok pf /\
     verifier e draw cdraw t0 (setup N s) n (pk_vk pk) (map (fun v => nth v w 0) (pub_variables gs)) pf = Ok tt)
  \/ (prover draw cdraw rnd t0 (setup N s) lag0 gs nv pk w = Panic /\
     exists t v p, (v < nv)%nat /\ (p < 5 * n)%nat /\
       cdraw n (t ++ [TDrawn 2]) = fopp (nth v w 0 + cdraw n t * name_of n om ks p))).
Proof.
  intros n m om Sn Sm Bm Hr Pm Lk K0 K1 Ck HN Hl Hw Lw Hs Hc.
  destruct (C36_total nv (wires gs) (wires_lt nv gs Hw)) as [perm Hp].
  exists (pk0 base1 gs s ks wm perm). split; [apply (indexer_ok base1 base2); assumption|].
  assert (Hwl : forall g, In g gs -> wire_lt (length w) g) by (now rewrite Lw).
  destruct (existsb (fun r => feqb (zD n om ks (ext gs w) perm (ch_b base1 cdraw gs s ks wm perm w rnd t0) (ch_g base1 cdraw gs s ks wm perm w rnd t0) r) 0) (seq 0 (n - 1))) eqn:Ex.
  - right. apply existsb_exists in Ex. destruct Ex as [r [Hr' Z]]. apply in_seq in Hr'. destruct (feqb_spec (zD n om ks (ext gs w) perm (ch_b base1 cdraw gs s ks wm perm w rnd t0) (ch_g base1 cdraw gs s ks wm perm w rnd t0) r) 0) as [Z'|]; [|discriminate Z]. clear Z.
    split; [apply (prover_panics base1 base2); auto; exists r; split; [lia|exact Z']|].
    exists (tr1 base1 gs s ks wm perm w rnd t0).
    assert (X : exists j, (j < 5)%nat /\ nth (j * n + r) (ext gs w) 0 + ch_g base1 cdraw gs s ks wm perm w rnd t0 + ch_b base1 cdraw gs s ks wm perm w rnd t0 * name_of n om ks (nth (j * n + r) perm 0%nat) = 0).
    { unfold zD, five in Z'. change (position n om ks) with (name_of n om ks) in Z'.
      apply fmul_0 in Z'. destruct Z' as [Z'|Z']; [|exists 4%nat; split; [lia|exact Z']]. apply fmul_0 in Z'. destruct Z' as [Z'|Z']; [|exists 3%nat; split; [lia|exact Z']].
      apply fmul_0 in Z'. destruct Z' as [Z'|Z']; [|exists 2%nat; split; [lia|exact Z']]. apply fmul_0 in Z'. destruct Z' as [Z'|Z']; [exists 0%nat|exists 1%nat]; (split; [lia|exact Z']). }
    destruct X as [j [Hj X]]. destruct (C36_bijection _ _ _ Hp) as [Lp [Bp _]].
    assert (Wl : length (wires gs) = (5 * n)%nat) by (unfold wires, n; rewrite !app_length, !map_length; lia). rewrite Wl in *.
    assert (Hi : (j * n + r < 5 * n)%nat) by (pose proof (supported_pos n Sn); nia).
    exists (nth (j * n + r) (wires gs) 0%nat), (nth (j * n + r) perm 0%nat). split; [|split].
    + apply (wires_lt nv gs Hw). apply nth_In. now rewrite Wl.
    + now apply Bp.
    + unfold ext in X. rewrite (nth_indep _ 0 (nth 0 w 0)) in X by (rewrite map_length, Wl; exact Hi). rewrite (map_nth (fun v => nth v w 0)) in X.
      change (ch_g base1 cdraw gs s ks wm perm w rnd t0) with (cdraw n (tr1 base1 gs s ks wm perm w rnd t0 ++ [TDrawn 2])) in X. change (ch_b base1 cdraw gs s ks wm perm w rnd t0) with (cdraw n (tr1 base1 gs s ks wm perm w rnd t0)) in X.
      apply (proj1 (fsub_0 F _ _)). etransitivity; [|exact X]. ring.
  - left. apply (prover_ok e base1 base2 pairing); auto.
    + now apply Forall_forall.
    + intros r Hr' Z. assert (Y : existsb (fun r => feqb (zD n om ks (ext gs w) perm (ch_b base1 cdraw gs s ks wm perm w rnd t0) (ch_g base1 cdraw gs s ks wm perm w rnd t0) r) 0) (seq 0 (n - 1)) = true).
      { apply existsb_exists. exists r. split; [apply in_seq; lia|]. match goal with |- feqb ?a 0 = true => destruct (feqb_spec a 0) as [|Q]; [reflexivity|exfalso; apply Q; exact Z] end. }
      rewrite Ex in Y. discriminate Y.
Qed.
(** Parameters in Lagrange form made for the same secret are ready to use. *)
Theorem C22_lagrange_parameters s n om (l : kzg G1 G2) : supported n -> primitive n om -> (N.of_nat n < 2 ^ 32)%N -> lagrange_params base1 s n om l -> lagrange_ready base1 s n om (Some l).
Proof. apply lagrange_params_ready. Qed.
(** [choose_ks] returns five different nonzero representatives starting with 1, and the
    coset used for the quotient misses the large group. *)
Theorem C22_choose_ks exp cands ks m : choose_ks exp cands = Some ks -> (0 < m)%nat -> (exp mod N.of_nat m = 0)%N ->
  length ks = 5%nat /\ nth 0 ks 0 = (1 : F) /\ NoDup ks /\ (forall k, In k ks -> k <> 0) /\ fpow (nth 1 ks 0) m <> 1.
Proof.
  intros E Pm D. destruct (choose_ks_ok exp cands ks E) as [A [B [C [N0 H]]]]. repeat split; auto. apply (non_residue exp); auto. apply H. lia.
Qed.

(** ** The equation determines the assignment *)
(** If five fixed witness polynomials satisfy the verifier's equation (for true evaluations)
    for more than 5n first challenges, for each more than 5n second challenges with some
    product polynomial, for more than 5 third challenges with some quotient chunks, and at
    more than 6L+6n+17 points, then the circuit is satisfied: every gate and boolean
    constraint holds of one assignment, which is what the polynomials encode, with the
    public values the polynomial [pi] takes on the group. *)
Theorem C22_equation_sound gen order (gs : list (gate F)) nv N s lag0 ks wm pk W pi L :
  let n := length gs in let m := quot_eval_dom_size n in let om := fpow wm (m / n) in
  supported n -> supported m -> (N.of_nat m < 2 ^ 32)%N ->
  nth_root_of_unity gen order m = Ok (Some wm) -> primitive m wm ->
  length ks = 5%nat -> nth 0 ks 0 = 1 -> fpow (nth 1 ks 0) m <> 1 -> distinct_cosets n ks ->
  (n + 2 <= N)%nat -> lagrange_ready base1 s n om (usable lag0 n) -> (forall g, In g gs -> wire_lt nv g) ->
  indexer gen order gs nv (setup N s) lag0 ks = Ok pk ->
  length W = 5%nat -> (forall p, In p W -> (length p <= L)%nat) -> (length pi <= L)%nat -> (n <= L)%nat ->
  more_than (5 * n) (fun b => more_than (5 * n) (fun g => exists z, (length z <= L)%nat /\
    more_than 5 (fun a => exists ts, length ts = 5%nat /\ (forall p, In p ts -> (length p <= L)%nat) /\
    more_than (6 * L + 6 * n + 17) (fun x => forall u, equation_holds pk n W z ts pi (mkCh b g a x u))))) ->
  exists w, circuit_holds gs w (fun i => value pi (fpow om i)) /\
    forall i j g, nth_error gs i = Some g -> (j < 5)%nat -> value (nth j W []) (fpow om i) = w (wire_of j g).
Proof.
  intros n m om Sn Sm Bm Hr Pm Lk K0 Ck Dc HN Hl Hw Hi L5 LW Lp Ln H. destruct (C36_total nv (wires gs) (wires_lt nv gs Hw)) as [perm Hp].
  rewrite (indexer_ok base1 base2 gen order gs nv N s lag0 ks wm perm) in Hi by assumption. apply Ok_inj in Hi. subst pk.
  refine (sound base1 gs nv s ks wm perm Sn Bm Pm Lk K0 Hp _ W pi L L5 LW Lp Ln H). apply names_distinct; auto; [now apply supported_pos|]. exact (Pom gs (n + 2) ks wm Sn Bm Pm Lk (le_n _)).
Qed.
(** For a proof that commits to polynomials, states their true values and opens honestly,
    the verifier accepts iff that equation holds at its challenges. *)
Theorem C22_verifier_exact N s t size (pk : pparams G1) ws z ts pi pip (pf : proof G1) : let vk := pk_vk pk in
  let ch := fst (compute_challenges cdraw (tr_init t vk pi) size pf) in let t1 := snd (compute_challenges cdraw (tr_init t vk pi) size pf) in let x := zeta ch in
  let n := cs_size vk in let zh := pow_limbs x [N.of_nat n] - 1 in
  base1 <> m0 -> (forall t, draw t <> 0) ->
  length (q_polys pk) = 13%nat -> length (s_polys pk) = 5%nat -> length (vk_k vk) = 5%nat -> length ws = 5%nat -> ts <> [] ->
  (forall p, In p (q_polys pk ++ s_polys pk ++ [qb_poly pk] ++ ws ++ [z] ++ ts) -> (length p <= S N)%nat) -> (degree z <= n + 2)%nat ->
  cm_q vk = map (com base1 s) (q_polys pk) -> cm_s vk = map (com base1 s) (s_polys pk) -> cm_qb vk = com base1 s (qb_poly pk) ->
  x <> 1 -> eval_pi_poly vk pi zh x = Ok (eval pip x) ->
  pf_w pf = map (com base1 s) ws -> pf_z pf = com base1 s z -> pf_t pf = map (com base1 s) ts ->
  ev_w pf = map (fun p => eval p x) ws -> ev_s pf = map (fun p => eval p x) (firstn 4 (s_polys pk)) -> ev_zw pf = eval z (vk_root vk * x) ->
  (forall r, r_poly pk z (ev_w pf) (ev_s pf) (ev_zw pf) ch ts (zh * finv (x - 1)) zh (n + 2) = Ok r ->
     exists t2, batch_prove draw (setup N s) t1 (ws ++ firstn 4 (s_polys pk) ++ [r]) x (n + 2) = Ok (open_z pf, t2)) ->
  prove (setup N s) z (x * vk_root vk) (n + 2) = Ok (open_zw pf) ->
  verifier e draw cdraw t (setup N s) size vk pi pf = Ok tt <-> equation_holds pk n ws z ts pip ch.
Proof. intros. eapply (verifier_exact e base1 base2 pairing draw cdraw N s t size pk ws z ts pi pip pf); eauto. Qed.

(** ** Proofs without a witness *)
(** The last challenge does not depend on the two openings.  From the verifier's parameters,
    any public inputs and any proof body (any commitments, any claimed values) of the right
    lengths, openings computed without the secret make the verifier accept. *)
Theorem C22_forged_openings_refuted N s t size vk pi (body : proof G1) :
  let ch := fst (compute_challenges cdraw (tr_init t vk pi) size body) in let x := zeta ch in
  length (cm_q vk) = 13%nat -> length (cm_s vk) = 5%nat -> length (vk_k vk) = 5%nat ->
  length (ev_w body) = 5%nat -> length (ev_s body) = 4%nat -> pf_t body <> [] ->
  u ch <> 0 -> x <> 0 -> vk_root vk <> 1 -> x <> 1 -> (forall i, In i (pub_idx vk) -> x <> pow_limbs (vk_root vk) [N.of_nat i]) ->
  exists pf, forge base1 draw cdraw t size vk pi body = Ok pf /\ pf_w pf = pf_w body /\ ev_w pf = ev_w body /\
    verifier e draw cdraw t (setup N s) size vk pi pf = Ok tt.
Proof.
  intros ch x Hq Hs Hk Hw He Ht Nu Nx Nr N1 Ni. destruct (forge_total base1 draw cdraw t size vk pi body Hq Hs Hk Hw He Ht (conj N1 Ni)) as [pf E]. exists pf. split; [exact E|].
  assert (X : pf_w pf = pf_w body /\ ev_w pf = ev_w body).
  { unfold forge in E. destruct (compute_challenges cdraw (tr_init t vk pi) size body) as [c t1]. repeat match type of E with bind ?a _ = _ => destruct a; cbn [bind] in E; try discriminate E end.
    destruct (batch draw t1 _ _ _ _) as [[? ?] ?]. apply Ok_inj in E. subst pf. split; reflexivity. }
  destruct X as [X1 X2]. split; [exact X1|]. split; [exact X2|]. apply (forge_accepted e base1 base2 pairing draw cdraw N s t size vk pi body pf E Nu).
  cbv zeta. intros Q. fold ch in Q. fold x in Q. assert (Z : x * (vk_root vk - 1) = 0) by (replace (x * (vk_root vk - 1)) with (x * vk_root vk - x) by ring; rewrite <- Q; ring).
  apply fmul_0 in Z. destruct Z as [Z|Z]; [contradiction|]. apply Nr. now apply (proj1 (fsub_0 F _ _)).
Qed.
(** The number of witness commitments is not checked.  With four zero commitments instead of
    five the verifier accepts for any circuit and any public inputs, with honest openings,
    whatever the order in which the challenges are drawn. *)
Theorem C22_four_commitments_refuted N s t size (pk : pparams G1) pi : let vk := pk_vk pk in
  let x := zeta (fst (compute_challenges cdraw (tr_init t vk pi) size (short_body [] [] m0 m0))) in
  length (q_polys pk) = 13%nat -> length (s_polys pk) = 5%nat -> length (vk_k vk) = 5%nat ->
  (forall p, In p (q_polys pk) -> (length p <= S N)%nat) -> (forall p, In p (s_polys pk) -> (length p <= S N)%nat) -> (length (qb_poly pk) <= S N)%nat ->
  cm_q vk = map (com base1 s) (q_polys pk) -> cm_s vk = map (com base1 s) (s_polys pk) -> cm_qb vk = com base1 s (qb_poly pk) ->
  x <> 1 -> (forall i, In i (pub_idx vk) -> x <> pow_limbs (vk_root vk) [N.of_nat i]) ->
  exists pf, short_forgery draw cdraw t (setup N s) size pk pi = Ok pf /\ pf_w pf = [m0; m0; m0; m0] /\
    verifier e draw cdraw t (setup N s) size vk pi pf = Ok tt.
Proof.
  intros vk x Hq Hs Hk Lq Ls Lb Cq Cs Cb N1 Ni. destruct (short_forgery_accepted e base1 base2 pairing draw cdraw N s t size pk pi Hq Hs Hk Lq Ls Lb Cq Cs Cb (conj N1 Ni)) as [pf [E V]].
  exists pf. split; [exact E|]. split; [|exact V]. unfold short_forgery in E.
  repeat match type of E with bind ?a _ = _ => destruct a; cbn [bind] in E; try discriminate E | (let (_, _) := ?a in _) = _ => destruct a end. apply Ok_inj in E. now subst pf.
Qed.
(** A missing evaluation makes the verifier panic instead of refusing. *)
Theorem C22_malformed_panics_refuted t k size vk pi (pf : proof G1) :
  let ch := fst (compute_challenges cdraw (tr_init t vk pi) size pf) in
  zeta ch <> 1 -> (forall i, In i (pub_idx vk) -> zeta ch <> pow_limbs (vk_root vk) [N.of_nat i]) -> (1 < length (ev_w pf))%nat -> ev_s pf = [] ->
  verifier e draw cdraw t k size vk pi pf = Panic.
Proof.
  intros ch N1 Ni Lw Es. unfold verifier. assert (Ec : compute_challenges cdraw (tr_init t vk pi) size pf = (ch, snd (compute_challenges cdraw (tr_init t vk pi) size pf))) by (unfold ch; now destruct (compute_challenges cdraw (tr_init t vk pi) size pf)). rewrite Ec.
  destruct (first_lagrange_total (cs_size vk) (zeta ch) N1) as [zl ->]. cbn [bind]. unfold eval_pi_poly. destruct (eval_pi_total (vk_root vk) (zeta ch) (pub_idx vk) pi (lag_consts vk) 0 Ni) as [v ->]. cbn [bind].
  unfold r_eval_zeta. rewrite Es. destruct (ev_w pf) as [|w0 [|w1 ws]]; cbn [length] in Lw; try lia. reflexivity.
Qed.
(** The number of public inputs is not checked: extra ones do not enter the equation (they
    only enter the transcript), missing ones count as zero. *)
Theorem C22_extra_inputs_refuted (vk : vparams G1) pi extra zh x : length (pub_idx vk) = length pi -> eval_pi_poly vk (pi ++ extra) zh x = eval_pi_poly vk pi zh x.
Proof.
  intros L. unfold eval_pi_poly. assert (X : forall is pi lcs acc, length is = length pi -> eval_pi_loop (F := F) (vk_root vk) x is (pi ++ extra) lcs acc = eval_pi_loop (vk_root vk) x is pi lcs acc).
  { clear. induction is as [|i is IH]; intros [|p pi] lcs acc H; try discriminate H; [reflexivity|]. cbn [app eval_pi_loop]. destruct lcs; [reflexivity|]. destruct (feqb _ 0); [reflexivity|]. apply IH. now injection H. }
  now rewrite X.
Qed.
Theorem C22_missing_inputs_refuted (vk : vparams G1) pi k zh x : (forall i, In i (pub_idx vk) -> x <> pow_limbs (vk_root vk) [N.of_nat i]) ->
  eval_pi_poly vk (pi ++ repeat 0 k) zh x = eval_pi_poly vk pi zh x.
Proof.
  intros Ni. unfold eval_pi_poly. assert (Z : forall is k lcs acc, (forall i, In i is -> x <> pow_limbs (vk_root vk) [N.of_nat i]) -> eval_pi_loop (F := F) (vk_root vk) x is (repeat 0 k) lcs acc = Ok acc).
  { clear. induction is as [|i is IH]; intros k lcs acc H; [reflexivity|]. destruct k as [|k]; [reflexivity|]. cbn [repeat eval_pi_loop]. destruct lcs as [|l lcs]; [reflexivity|].
    destruct (feqb_spec (x - pow_limbs (vk_root vk) [N.of_nat i]) 0) as [Q|_]; [exfalso; apply (H i); [now left|now apply (proj1 (fsub_0 F _ _))]|]. rewrite IH by (intros; apply H; now right). f_equal. ring. }
  assert (X : forall is pi lcs acc, (forall i, In i is -> x <> pow_limbs (vk_root vk) [N.of_nat i]) -> eval_pi_loop (F := F) (vk_root vk) x is (pi ++ repeat 0 k) lcs acc = eval_pi_loop (vk_root vk) x is pi lcs acc).
  { clear - Z. induction is as [|i is IH]; intros [|p pi] lcs acc H; cbn [app]; try reflexivity; [now rewrite Z|]. cbn [eval_pi_loop]. destruct lcs; [reflexivity|]. destruct (feqb _ 0); [reflexivity|]. apply IH. intros; apply H; now right. }
  now rewrite X.
Qed.

(** ** C55: splitting and hiding *)
(** The chunks of the quotient recombine to it at every point: chunk [i] counts [x^(i n)]
    times, whatever the random values that link neighbouring chunks. *)
Theorem C55_split_recombines (t : list F) n rands (x : F) : (0 < n)%nat -> rands <> [] ->
  value t x = fsum (map (fun i => fpow x (i * n) * value (nth i (split_t t n rands 0) []) x) (seq 0 (length rands))).
Proof.
  intros Pn Nr. pose proof (split_t_ok n x Pn rands t 0 Nr) as H. destruct (split_t_len n Pn rands t 0) as [L _]. rewrite <- hv_value. replace (hv t x) with (recombine x n (split_t t n rands 0)) by (rewrite H; ring).
  rewrite <- L. generalize (split_t t n rands 0) as ts. clear. induction ts as [|p ts IH]; [reflexivity|]. cbn [recombine length seq map]. rewrite IH, fsum_cons, <- seq_shift, map_map. cbn [nth Nat.mul fpow]. rewrite hv_value. rewrite <- fsum_scale. f_equal; [ring|].
  apply fsum_ext. intros i _. rewrite Nat.mul_comm. cbn [Nat.mul]. replace (n * S i)%nat with (n + i * n)%nat by lia. rewrite fpow_add. ring.
Qed.
(** There is one chunk per random value, and each has at most n + 1 coefficients when the
    quotient has at most one more than as many n-blocks; so the chunks fit the parameters. *)
Theorem C55_split_sizes (t : list F) n rands : (0 < n)%nat -> (length t <= length rands * n + 1)%nat ->
  length (split_t t n rands 0) = length rands /\ forall p, In p (split_t t n rands 0) -> normal p /\ (length p <= n + 1)%nat.
Proof.
  intros Pn Lt. destruct (split_t_len n Pn rands t 0) as [L A]. split; [exact L|]. intros p Hp. destruct (A p Hp) as [B C]. split; [exact B|]. destruct rands as [|r rands]; [destruct Hp|]. cbn [length] in *. rewrite Nat.sub_succ, Nat.sub_0_r in C. nia.
Qed.
(** Hiding adds a multiple of the vanishing polynomial: values on the group do not change,
    and elsewhere the polynomial moves by exactly (1 - x^n) times the blinding polynomial. *)
Theorem C55_hiding (p : list F) blinds n : p <> [] -> exists q, hide_polynomial blinds p n = Ok q /\ (length q <= Nat.max (length p) (n + length blinds))%nat /\
  (forall x, value q x = value p x + (1 - fpow x n) * value blinds x) /\ (forall x, fpow x n = 1 -> value q x = value p x).
Proof.
  intros Np. destruct (hide_ok blinds p n Np) as [q [E [_ [L V]]]]. exists q. split; [exact E|]. split; [exact L|].
  assert (V' : forall x, value q x = value p x + (1 - fpow x n) * value blinds x) by (intros x; rewrite <- !hv_value; apply V). split; [exact V'|]. intros x H. rewrite V', H. ring.
Qed.
(** So two blinds hide one opened value: for any claimed value at a point outside the group
    there is a blind giving it. *)
Theorem C55_hiding_covers (p : list F) n x v : p <> [] -> fpow x n <> 1 -> exists b q, hide_polynomial [b; 0] p n = Ok q /\ value q x = v.
Proof.
  intros Np Hx. exists ((v - value p x) * finv (1 - fpow x n)). destruct (C55_hiding p [(v - value p x) * finv (1 - fpow x n); 0] n Np) as [q [E [_ [V _]]]]. exists q. split; [exact E|]. rewrite V, <- (hv_value [_; _]). cbn [hv]. field. intros Q. apply Hx. symmetry. now apply (proj1 (fsub_0 F _ _)).
Qed.
End Props.

(** ** Over BLS12-381 *)
(** For every padded circuit of 2^k gates (k up to 28) over the BLS12-381 scalar field, with
    coset representatives chosen by [choose_ks]: the same conclusion with nothing assumed
    about roots of unity. *)
Theorem C22_bls_honest {G1 G2 GT : Mod BLS} (e : G1 -> G2 -> GT) base1 base2 (pairing : pairing_for e base2) draw cdraw (gs : list (gate BLS)) k nv N s cands ks w rnd t0 :
  let n := length gs in
  length gs = (2 ^ k)%nat -> (k <= 28)%nat -> choose_ks ((bls_q - 1) / 2) cands = Some ks -> (n + 2 <= N)%nat ->
  (forall g, In g gs -> wire_lt nv g) -> length w = nv ->
  (forall g, In g gs -> gate_eq (fun v => nth v w 0) g /\ gate_bool (fun v => nth v w 0) g) ->
  (forall t, fpow (cdraw n t) n <> 1) ->
  exists pk, indexer (G1 := G1) (G2 := G2) (fofZ 7) bls_q gs nv (setup base1 base2 N s) None ks = Ok pk /\
  ((exists pf, prover draw cdraw rnd t0 (setup base1 base2 N s) None gs nv pk w = Ok pf /\
     verifier e draw cdraw t0 (setup base1 base2 N s) n (pk_vk pk) (map (fun v => nth v w 0) (pub_variables gs)) pf = Ok tt)
  \/ prover draw cdraw rnd t0 (setup base1 base2 N s) None gs nv pk w = Panic).
Proof.
  intros n En Hk Ec HN Hw Lw Hs Hc. destruct (bls_domain k Hk) as [Sn [Sm [Bm [D [wm [Hr Pm]]]]]]. rewrite <- En in Sn, Sm, Bm, D, Hr, Pm.
  assert (Pm0 : (0 < quot_eval_dom_size (length gs))%nat) by now apply supported_pos.
  destruct (C22_choose_ks _ _ _ _ Ec Pm0 D) as [Lk [K0 [_ [Nz Ck]]]].
  assert (N1 : nth 1 ks 0 <> 0) by (apply Nz, nth_In; lia).
  destruct (C22_honest e base1 base2 pairing draw cdraw (fofZ 7) bls_q gs nv N s None ks wm w rnd t0 Sn Sm Bm Hr Pm Lk K0 N1 Ck HN I Hw Lw Hs Hc) as [pk [A [B|[B _]]]];
    exists pk; (split; [exact A|]); [left; exact B|right; exact B].
Qed.


Lemma feqb_true {F : Field} (a b : F) : feqb a b = true -> a = b.
Proof. now destruct (feqb_spec a b). Qed.
(** Two of the chosen representatives can lie in the same coset of the group: the names of
    different positions then coincide.  Over the field of 101 elements with two gates (the
    group is {1, -1}), the candidates 2 and -2 are both taken. *)
Theorem C22_cosets_collide_refuted : exists cands ks, choose_ks (F := P101) 50 cands = Some ks /\ ~ distinct_cosets 2 ks /\
  name_of 2 (fopp 1) ks 2 = name_of 2 (fopp 1) ks 5.
Proof.
  exists [fofZ 2; fofZ 99; fofZ 3; fofZ 7], [fofZ 1; fofZ 2; fofZ 99; fofZ 3; fofZ 7]. split; [vm_compute; reflexivity|]. split; [|apply feqb_true; vm_compute; reflexivity].
  intros [_ D]. apply (D 1%nat 2%nat); [cbn; lia|apply feqb_true; vm_compute; reflexivity].
Qed.

(** ** A run: two gates over the field of 97 elements *)
Lemma prime_97 : Znumtheory.prime 97. Proof. apply small_prime_sound. vm_compute. reflexivity. Qed.
Definition P97 : PField := ZpP 97 prime_97.
Section Examples.
Let z (x : Z) : P97 := fofZ x.
Let G := self_mod P97.
Let e (a b : G) : G := fmul (a : P97) b.
Let K := setup (G1 := G) (G2 := G) (z 1 : G) (z 1 : G) 6 (z 20).
(** v1 * v2 = v3, and v3 is public. *)
Let mulgate : gate P97 := mkGate (z 0) (z 0) (z 0) (z 0) (z 1) (z 0) (z 0) (z 0) (z 0) (z 0) (z 0) (z 0) (z 1) 1 2 0 0 3 false None.
Let pubgate : gate P97 := mkGate (z 0) (z 0) (z 0) (z 0) (z 0) (z 0) (z 0) (z 0) (z 0) (z 0) (z 0) (z 0) (z 1) 0 0 0 0 3 false (Some 3%nat).
Let gs := [mulgate; pubgate].
Let ks := [z 1; z 5; z 7; z 10; z 13].
Let dr (t : list (tmsg G)) : P97 := z (3 + Z.of_nat (length t)).
Let cd (_ : nat) (t : list (tmsg G)) : P97 := z (11 + Z.of_nat (length t)).
Let rnd (i : nat) : P97 := z (7 + 5 * Z.of_nat i).
Let wit := [z 0; z 4; z 6; z 24].
Let run (pi : list P97) : res unit :=
  bind (indexer (z 5) 97 gs 4 K None ks) (fun pk =>
  bind (prover dr cd rnd [] K None gs 4 pk wit) (fun pf => verifier e dr cd [] K 2 (pk_vk pk) pi pf)).
Example C22_example : run [z 24] = Ok tt /\ run [z 25] = Err.
Proof. split; vm_compute; reflexivity. Qed.
(** The hypotheses of [C22_honest] hold of it. *)
Example C22_example_hypotheses : supported 2 /\ supported 32 /\ (exists wm, nth_root_of_unity (z 5) 97 32 = Ok (Some wm) /\ primitive 32 wm) /\ distinct_cosets 2 ks /\
  choose_ks 48 [z 2; z 5; z 7; z 10; z 13] = Some ks /\ (forall g, In g gs -> wire_lt 4 g) /\
  (forall g, In g gs -> gate_eq (fun v => nth v wit 0) g /\ gate_bool (fun v => nth v wit 0) g).
Proof.
  split; [exists 1%nat; now left|]. split; [exists 5%nat; now left|]. split.
  { apply C44_root_primitive; [exists 5%nat; now left|reflexivity|reflexivity|apply feqb_true; vm_compute; reflexivity|apply feqb_neq; vm_compute; reflexivity|intros H; discriminate H]. }
  split.
  { split.
    - intros k H. apply feqb_neq. unfold ks in H. repeat destruct H as [<-|H]; [vm_compute; reflexivity..|destruct H].
    - intros i j H. apply feqb_neq. cbn [ks length] in H. assert (C : (i < 4)%nat) by (cbn in H; lia). assert (C2 : (j < 5)%nat) by (cbn in H; lia). do 5 (destruct j as [|j]; [do 4 (destruct i as [|i]; [try (vm_compute; reflexivity); exfalso; lia|]); lia|]). lia. }
  split; [vm_compute; reflexivity|]. split; intros g [<-|[<-|[]]].
  - repeat split; cbn; lia.
  - repeat split; cbn; lia.
  - split; [unfold gate_eq; apply feqb_true; vm_compute; reflexivity|intros H; discriminate H].
  - split; [unfold gate_eq; apply feqb_true; vm_compute; reflexivity|intros H; discriminate H].
Qed.
Example C22_forgery_example :
  match indexer (z 5) 97 gs 4 K None ks with Ok pk =>
    match forge (z 1 : G) dr cd [] 2 (pk_vk pk) [z 77] (mkPf (F := P97) (G1 := G) [z 3; z 1; z 4; z 1; z 5] [z 9] (z 2 : G) [z 6; z 5; z 3; z 5; z 8] (z 9) [z 7; z 9; z 3; z 2] (z 0 : G) (z 0 : G)), short_forgery dr cd [] K 2 pk [z 77] with
    | Ok p1, Ok p2 => match verifier e dr cd [] K 2 (pk_vk pk) [z 77] p1, verifier e dr cd [] K 2 (pk_vk pk) [z 77] p2 with Ok _, Ok _ => true | _, _ => false end
    | _, _ => false end
  | _ => false end = true.
Proof. vm_compute. reflexivity. Qed.
Example C22_group_example :
  match build_group (z 22) 4, build_group (z 5) 4 with Ok l, Err => forallb (fun ab => feqb (fst ab) (snd ab)) (combine l (map z [1; 22; 96; 75]%Z)) && Nat.eqb (length l) 4 | _, _ => false end = true.
Proof. vm_compute. reflexivity. Qed.
Example C55_example : let t := map z [1; 2; 3; 4; 5; 6; 7; 8]%Z in
  map (fun p => length p) (split_t t 3 [z 50; z 60; z 70] (z 0)) = [4; 4; 2]%nat.
Proof. vm_compute. reflexivity. Qed.
End Examples.

Print Assumptions C22_honest. Print Assumptions C22_bls_honest. Print Assumptions C22_lagrange_parameters. Print Assumptions C22_choose_ks.
Print Assumptions C22_equation_sound. Print Assumptions C22_verifier_exact. Print Assumptions C22_forged_openings_refuted. Print Assumptions C22_four_commitments_refuted.
Print Assumptions C22_malformed_panics_refuted. Print Assumptions C22_extra_inputs_refuted. Print Assumptions C22_missing_inputs_refuted. Print Assumptions C22_cosets_collide_refuted.
Print Assumptions C55_split_recombines. Print Assumptions C55_split_sizes. Print Assumptions C55_hiding. Print Assumptions C55_hiding_covers.
Print Assumptions C22_group. Print Assumptions C22_group_refused.
