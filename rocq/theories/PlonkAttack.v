(** Two ways to make the verifier accept without any witness, from public data only. *)
From Coq Require Import List Arith NArith ZArith Lia Bool Permutation Field Ring.
From Verif Require Import Base Field PField Power TurboModel TurboSpec PermModel PolyModel PolySpec PolyProofs PolyLemmas PolyFft PolyProps KzgModel KzgSpec KzgProofs KzgProps PlonkModel PlonkSpec PlonkPoly PlonkProofs PlonkCore PlonkComplete.
Import ListNotations.
Local Open Scope F_scope.

Section Attack.
Context {F : PField} {G1 G2 GT : Mod F} (e : G1 -> G2 -> GT) (base1 : G1) (base2 : G2) (pairing : pairing_for e base2).
Context (draw : list (tmsg G1) -> F) (cdraw : nat -> list (tmsg G1) -> F).
Add Field Fat : (f_th F).
Notation setup := (setup base1 base2).

(** ** Openings computed after the last challenge *)
(** The challenge [u] depends on everything in the proof but the two openings, which are then
    chosen.  [body] is a proof whose openings are ignored; only the first element of the public
    parameters is used. *)
Definition forge (t : list (tmsg G1)) (size : nat) (vk : vparams G1) (pi : list F) (body : proof G1) : res (proof G1) :=
  let (ch, t1) := compute_challenges cdraw (tr_init t vk pi) size body in
  let! zl := first_lagrange (cs_size vk) (zeta ch) in
  let! piz := eval_pi_poly vk pi (fst zl) (zeta ch) in
  let! r := r_eval_zeta ch body piz (snd zl) in
  let! cm_r := r_commitment vk (pf_z body) (ev_w body) (ev_s body) (ev_zw body) ch (pf_t body) (snd zl) (fst zl) (cs_size vk + 2) in
  let '(c, v, _) := batch draw t1 (pf_w body ++ firstn 4 (cm_s vk) ++ [cm_r]) (cs_size vk + 2) (zeta ch) (ev_w body ++ ev_s body ++ [r]) in
  let w1 := (finv (zeta ch * vk_root vk - zeta ch) *: (c + u ch *: pf_z body - (v + u ch * ev_zw body) *: base1))%M in
  Ok (mkPf (pf_w body) (pf_t body) (pf_z body) (ev_w body) (ev_zw body) (ev_s body) w1 (fopp (finv (u ch)) *: w1)%M).
Lemma forge_accepted N s t size vk pi body pf : forge t size vk pi body = Ok pf ->
  u (fst (compute_challenges cdraw (tr_init t vk pi) size body)) <> 0 ->
  (let x := zeta (fst (compute_challenges cdraw (tr_init t vk pi) size body)) in x <> x * vk_root vk) ->
  verifier e draw cdraw t (setup N s) size vk pi pf = Ok tt.
Proof.
  unfold forge. destruct (compute_challenges cdraw (tr_init t vk pi) size body) as [ch t1] eqn:Ec. cbn [fst]. cbv zeta. intros E Nu Nx.
  destruct (first_lagrange (cs_size vk) (zeta ch)) as [zl| |] eqn:E1; cbn [bind] in E; try discriminate E.
  destruct (eval_pi_poly vk pi (fst zl) (zeta ch)) as [piz| |] eqn:E2; cbn [bind] in E; try discriminate E.
  destruct (r_eval_zeta ch body piz (snd zl)) as [r| |] eqn:E3; cbn [bind] in E; try discriminate E.
  destruct (r_commitment vk (pf_z body) (ev_w body) (ev_s body) (ev_zw body) ch (pf_t body) (snd zl) (fst zl) (cs_size vk + 2)) as [cm_r| |] eqn:E4; cbn [bind] in E; try discriminate E.
  destruct (batch draw t1 (pf_w body ++ firstn 4 (cm_s vk) ++ [cm_r]) (cs_size vk + 2) (zeta ch) (ev_w body ++ ev_s body ++ [r])) as [[c v] t2] eqn:E5.
  apply Ok_inj in E. subst pf. unfold verifier.
  match goal with |- context [compute_challenges cdraw (tr_init t vk pi) size ?p] => replace (compute_challenges cdraw (tr_init t vk pi) size p) with (ch, t1) by (rewrite <- Ec; reflexivity) end.
  rewrite E1. cbn [bind]. rewrite E2. cbn [bind].
  match goal with |- context [r_eval_zeta ch ?p piz (snd zl)] => replace (r_eval_zeta ch p piz (snd zl)) with (Ok r) by (rewrite <- E3; reflexivity) end. cbn [bind pf_z pf_w pf_t ev_w ev_s ev_zw open_z open_zw].
  rewrite E4. cbn [bind]. rewrite E5. apply (C21_forged_openings_refuted e base1 base2 pairing); assumption.
Qed.
(** The attack always goes through for vectors of the right lengths. *)
Lemma eval_pi_total root x : forall is pi lcs acc, (forall i, In i is -> x <> pow_limbs root [N.of_nat i]) -> exists v, eval_pi_loop (F := F) root x is pi lcs acc = Ok v.
Proof.
  induction is as [|i is IH]; intros pi lcs acc H; [eexists; reflexivity|]. destruct pi as [|p pi]; [eexists; reflexivity|]. destruct lcs as [|l lcs]; [eexists; reflexivity|]. cbn [eval_pi_loop].
  destruct (feqb_spec (x - pow_limbs root [N.of_nat i]) 0) as [X|_]; [exfalso; apply (H i); [now left|now apply (proj1 (fsub_0 F _ _))]|]. apply IH. intros; apply H; now right.
Qed.
Lemma r_commitment_total (vk : vparams G1) cz we se zw ch ts l1 zh nt : length (cm_q vk) = 13%nat -> length (cm_s vk) = 5%nat -> length (vk_k vk) = 5%nat ->
  length we = 5%nat -> length se = 4%nat -> ts <> [] -> exists c, r_commitment vk cz we se zw ch ts l1 zh nt = Ok c.
Proof.
  intros Hq Hs Hk Hw He Ht. unfold r_commitment. destruct vk as [cq cs cb kk rt sz pix lcs]. cbn [cm_q cm_s vk_k cm_qb] in *.
  destruct we as [|w0 [|w1 [|w2 [|w3 [|w4 [|]]]]]]; try discriminate Hw. destruct se as [|s0 [|s1 [|s2 [|s3 [|]]]]]; try discriminate He.
  do 13 (destruct cq as [|? cq]; [discriminate Hq|]). destruct cq; [|discriminate Hq]. destruct kk as [|k0 [|k1 [|k2 [|k3 [|k4 [|]]]]]]; try discriminate Hk. destruct cs as [|c0 [|c1 [|c2 [|c3 [|c4 [|]]]]]]; try discriminate Hs.
  destruct ts as [|t0 ts]; [contradiction|]. eexists. unfold r_combine. cbn [eval_selector_multipliers unwrap bind idx nth_error selector_multipliers q_terms k_factors s_factors]. reflexivity.
Qed.
Lemma r_eval_total ch (pf : proof G1) pi l1 : length (ev_w pf) = 5%nat -> length (ev_s pf) = 4%nat -> exists r, r_eval_zeta ch pf pi l1 = Ok r.
Proof.
  destruct pf as [a b c we zw se o1 o2]. cbn [ev_w ev_s]. intros Hw He. destruct we as [|w0 [|w1 [|w2 [|w3 [|w4 [|]]]]]]; try discriminate Hw. destruct se as [|s0 [|s1 [|s2 [|s3 [|]]]]]; try discriminate He.
  eexists. unfold r_eval_zeta. cbn [ev_w ev_s ev_zw s_factors bind idx nth_error length Nat.sub]. reflexivity.
Qed.
Lemma first_lagrange_total n (x : F) : x <> 1 -> exists zl, first_lagrange n x = Ok zl.
Proof. intros H. unfold first_lagrange. destruct (feqb_spec (x - 1) 0) as [X|_]; [exfalso; apply H; now apply (proj1 (fsub_0 F _ _))|eexists; reflexivity]. Qed.
Lemma forge_total t size vk pi body : length (cm_q vk) = 13%nat -> length (cm_s vk) = 5%nat -> length (vk_k vk) = 5%nat ->
  length (ev_w body) = 5%nat -> length (ev_s body) = 4%nat -> pf_t body <> [] ->
  (let x := zeta (fst (compute_challenges cdraw (tr_init t vk pi) size body)) in x <> 1 /\ forall i, In i (pub_idx vk) -> x <> pow_limbs (vk_root vk) [N.of_nat i]) ->
  exists pf, forge t size vk pi body = Ok pf.
Proof.
  intros Hq Hs Hk Hw He Ht. unfold forge. destruct (compute_challenges cdraw (tr_init t vk pi) size body) as [ch t1]. cbn [fst]. cbv zeta. intros [N1 Ni].
  destruct (first_lagrange_total (cs_size vk) (zeta ch) N1) as [zl ->]. cbn [bind]. unfold eval_pi_poly.
  destruct (eval_pi_total (vk_root vk) (zeta ch) (pub_idx vk) pi (lag_consts vk) 0 Ni) as [v ->]. cbn [bind].
  destruct (r_eval_total ch body (v * fst zl) (snd zl) Hw He) as [r ->]. cbn [bind].
  destruct (r_commitment_total vk (pf_z body) (ev_w body) (ev_s body) (ev_zw body) ch (pf_t body) (snd zl) (fst zl) (cs_size vk + 2) Hq Hs Hk Hw He Ht) as [c ->]. cbn [bind].
  destruct (batch draw t1 _ _ _ _) as [[c' v'] t']. eexists. reflexivity.
Qed.

(** ** Four witness commitments instead of five *)
(** The lists of commitments and values are paired from the front and cut to the shorter:
    with one witness commitment missing every later value is checked against its
    successor's commitment, and the last value is not checked at all. *)
Definition short_body (we se : list F) (o o2 : G1) : proof G1 := mkPf [m0; m0; m0; m0] [m0] m0 we 0 se o o2.
Definition short_forgery (t : list (tmsg G1)) (k : kzg G1 G2) (size : nat) (pk : pparams G1) (pi : list F) : res (proof G1) :=
  let vk := pk_vk pk in
  let ch0 := fst (compute_challenges cdraw (tr_init t vk pi) size (short_body [] [] m0 m0)) in
  let x := zeta ch0 in
  let ev i := eval (nth i (s_polys pk) []) x in
  let we := [0; 0; 0; 0; ev 0%nat] in
  let! zl := first_lagrange (cs_size vk) x in
  let! r := r_poly pk [0] we [0; 0; 0; 0] 0 ch0 [[0]] (snd zl) (fst zl) (cs_size vk + 2) in
  let se := [ev 1%nat; ev 2%nat; ev 3%nat; eval r x] in
  let (ch, t1) := compute_challenges cdraw (tr_init t vk pi) size (short_body we se m0 m0) in
  let! o := batch_prove draw k t1 ([[0]; [0]; [0]; [0]] ++ firstn 4 (s_polys pk) ++ [r]) x (cs_size vk + 2) in
  let! o2 := prove k [0] (x * vk_root vk) (cs_size vk + 2) in
  Ok (short_body we se (fst o) o2).
Lemma s_factors_zero ch : forall (ws ss : list F), (length ss = length ws - 1)%nat -> ws <> [] -> s_factors ch ws ss 0 = Ok 0.
Proof.
  induction ws as [|w ws IH]; intros ss L Nn; [contradiction|]. destruct ws as [|w2 ws]; [reflexivity|]. destruct ss as [|s0 ss]; [discriminate L|].
  change (s_factors ch (w :: w2 :: ws) (s0 :: ss) 0) with (s_factors ch (w2 :: ws) ss (0 * (w + beta ch * s0 + gamma ch))).
  replace (0 * (w + beta ch * s0 + gamma ch)) with (0 : F) by ring. apply IH; [|discriminate]. cbn [length] in *. lia.
Qed.
Lemma short_forgery_accepted N s t size (pk : pparams G1) pi : let vk := pk_vk pk in
  length (q_polys pk) = 13%nat -> length (s_polys pk) = 5%nat -> length (vk_k vk) = 5%nat ->
  (forall p, In p (q_polys pk) -> (length p <= S N)%nat) -> (forall p, In p (s_polys pk) -> (length p <= S N)%nat) -> (length (qb_poly pk) <= S N)%nat ->
  cm_q vk = map (com base1 s) (q_polys pk) -> cm_s vk = map (com base1 s) (s_polys pk) -> cm_qb vk = com base1 s (qb_poly pk) ->
  (let x := zeta (fst (compute_challenges cdraw (tr_init t vk pi) size (short_body [] [] m0 m0))) in x <> 1 /\ forall i, In i (pub_idx vk) -> x <> pow_limbs (vk_root vk) [N.of_nat i]) ->
  exists pf, short_forgery t (setup N s) size pk pi = Ok pf /\ verifier e draw cdraw t (setup N s) size vk pi pf = Ok tt.
Proof.
  intros vk Hq Hs Hk Lq Ls Lb Cq Cs Cb. unfold short_forgery. fold vk. cbv zeta.
  set (ch0 := fst (compute_challenges cdraw (tr_init t vk pi) size (short_body [] [] m0 m0))). set (x := zeta ch0). intros [N1 Ni].
  destruct (first_lagrange_total (cs_size vk) x N1) as [zl Ez]. rewrite Ez. cbn [bind].
  set (we := [0; 0; 0; 0; eval (nth 0 (s_polys pk) []) x]).
  assert (Er : exists r, r_poly pk [0] we [0; 0; 0; 0] 0 ch0 [[0]] (snd zl) (fst zl) (cs_size vk + 2) = Ok r).
  { unfold r_poly. fold vk. rewrite (idx_nth (s_polys pk) 4 []) by lia. unfold we. cbn [eval_selector_multipliers unwrap bind]. clear - Hq Hk. destruct (q_polys pk) as [|q0 qs]; [discriminate Hq|]. 
    do 12 (destruct qs as [|? qs]; [discriminate Hq|]). destruct qs; [|discriminate Hq]. destruct (vk_k vk) as [|k0 [|k1 [|k2 [|k3 [|k4 [|]]]]]]; try discriminate Hk.
    eexists. unfold r_combine. cbn [selector_multipliers bind idx nth_error q_terms k_factors s_factors]. reflexivity. }
  destruct Er as [r Er]. rewrite Er. cbn [bind].
  set (se := [eval (nth 1 (s_polys pk) []) x; eval (nth 2 (s_polys pk) []) x; eval (nth 3 (s_polys pk) []) x; eval r x]).
  destruct (compute_challenges cdraw (tr_init t vk pi) size (short_body we se m0 m0)) as [ch t1] eqn:Ec.
  assert (Hch : beta ch = beta ch0 /\ gamma ch = gamma ch0 /\ alpha ch = alpha ch0 /\ zeta ch = x).
  { unfold x, ch0. apply (f_equal fst) in Ec. cbn [fst] in Ec. rewrite <- Ec. repeat split. }
  destruct Hch as [Hb [Hg [Ha Hz]]].
  (* the combination with the real evaluations *)
  assert (Er2 : r_poly pk [0] we se 0 ch [[0]] (snd zl) (fst zl) (cs_size vk + 2) = Ok r).
  { rewrite <- Er. unfold r_poly. fold vk. rewrite (idx_nth (s_polys pk) 4 []) by lia. unfold we. cbn [eval_selector_multipliers unwrap bind].
    unfold r_combine. destruct (q_polys pk) as [|q0 qs]; [reflexivity|]. cbn [selector_multipliers]. rewrite Ha, Hz. destruct (q_terms _ _ _ _ _) as [l| |]; cbn [bind]; try reflexivity.
    replace (k_factors ch [0; 0; 0; 0; eval (nth 0 (s_polys pk) []) x] (vk_k vk) (alpha ch0)) with (k_factors ch0 [0; 0; 0; 0; eval (nth 0 (s_polys pk) []) x] (vk_k vk) (alpha ch0)).
    2: { generalize (alpha ch0) as acc. generalize [0; 0; 0; 0; eval (nth 0 (s_polys pk) []) x] as ws. generalize (vk_k vk) as kl. clear - Hb Hg Hz. intros kl ws. revert kl. induction ws as [|w ws IH]; intros kl acc; [reflexivity|]. cbn [k_factors]. destruct kl; [reflexivity|]. rewrite Hb, Hg, Hz. unfold x. apply IH. }
    destruct (k_factors _ _ _ _) as [zk| |]; cbn [bind]; try reflexivity.
    replace (alpha ch0 * (0 * beta ch)) with (0 : F) by ring. replace (alpha ch0 * (0 * beta ch0)) with (0 : F) by ring.
    rewrite !s_factors_zero by (try discriminate; reflexivity). reflexivity. }
  set (ps := [[0]; [0]; [0]; [0]] ++ firstn 4 (s_polys pk) ++ [r]).
  assert (Lr : (length r <= S N)%nat).
  { unfold r_poly in Er. fold vk in Er. rewrite (idx_nth (s_polys pk) 4 []) in Er by lia. unfold we in Er. cbn [eval_selector_multipliers unwrap bind] in Er. eapply r_combine_len; [..|exact Er]; auto; cbn [length]; try lia.
    - apply Ls, nth_In. lia.
    - intros q [<-|[]]. cbn. lia. }
  destruct (two_openings e base1 base2 pairing draw N s t1 ps [0] x (x * vk_root vk) (cs_size vk + 2)) with (extra := [match r_eval_zeta ch (short_body we se m0 m0) (match eval_pi_poly vk pi (fst zl) x with Ok v => v | _ => 0 end) (snd zl) with Ok v => v | _ => 0 end]) (u := u ch) as [q [q2 [t' [Ob [Op Ov]]]]].
  { discriminate. } { unfold ps. intros p Hp. rewrite !in_app_iff in Hp. destruct Hp as [Hp|[Hp|[<-|[]]]]; [|apply Ls; rewrite <- (firstn_skipn 4 (s_polys pk)); apply in_app_iff; now left|exact Lr]. repeat destruct Hp as [<-|Hp]; cbn; try lia. destruct Hp. }
  { cbn. lia. } { cbn. lia. }
  rewrite Ob. cbn [bind fst]. rewrite Op. cbn [bind]. eexists. split; [reflexivity|].
  unfold verifier. replace (compute_challenges cdraw (tr_init t vk pi) size (short_body we se (com base1 s q) (com base1 s q2))) with (ch, t1) by (rewrite <- Ec; reflexivity).
  rewrite Hz, Ez. cbn [bind]. unfold eval_pi_poly in *. destruct (eval_pi_total (vk_root vk) x (pub_idx vk) pi (lag_consts vk) 0 Ni) as [v Ev]. rewrite Ev in Ov |- *. cbn [bind] in Ov |- *.
  assert (Re : r_eval_zeta ch (short_body we se (com base1 s q) (com base1 s q2)) (v * fst zl) (snd zl) = r_eval_zeta ch (short_body we se m0 m0) (v * fst zl) (snd zl)) by reflexivity. rewrite Re.
  destruct (r_eval_total ch (short_body we se m0 m0) (v * fst zl) (snd zl) eq_refl eq_refl) as [rv Erv]. rewrite Erv in Ov |- *. cbn [bind].
  cbn [short_body pf_z pf_w pf_t ev_w ev_s ev_zw open_z open_zw].
  assert (Ecm : r_commitment vk m0 we se 0 ch [m0] (snd zl) (fst zl) (cs_size vk + 2) = Ok (com base1 s r)).
  { assert (Z : com base1 s [0] = m0) by (unfold com; rewrite <- hv_value; cbn [hv]; replace (0 + s * 0) with (0 : F) by ring; apply smul_0l).
    unfold r_commitment. rewrite Cs, Cq, Cb. rewrite (idx_nth (map (com base1 s) (s_polys pk)) 4 (com base1 s [])) by (rewrite map_length; lia). unfold we. cbn [eval_selector_multipliers unwrap bind]. rewrite map_nth.
    unfold r_poly in Er2. fold vk in Er2. rewrite (idx_nth (s_polys pk) 4 []) in Er2 by lia. unfold we in Er2. cbn [eval_selector_multipliers unwrap bind] in Er2.
    match type of Er2 with r_combine _ _ _ ?a ?b ?c ?d ?f ?g ?h ?i ?j ?k ?l ?mm ?nn ?o = _ => pose proof (r_combine_com base1 s a b c d f g h i j k l mm nn o) as X end. rewrite Er2 in X. cbn [map] in X. rewrite Z in X.
    match type of X with rres _ _ ?y => destruct y as [c| |] eqn:E9; cbn [rres] in X; try contradiction end. now subst c. }
  rewrite Ecm. cbn [bind].
  assert (Z : com base1 s [0] = m0) by (unfold com; rewrite <- hv_value; cbn [hv]; replace (0 + s * 0) with (0 : F) by ring; apply smul_0l).
  assert (Em : [m0; m0; m0; m0] ++ firstn 4 (cm_s vk) ++ [com base1 s r] = map (com base1 s) ps).
  { unfold ps. rewrite !map_app, <- firstn_map, <- Cs. cbn [map]. rewrite Z. reflexivity. }
  assert (Ee : we ++ se ++ [rv] = map (fun p => hv p x) ps ++ [rv]).
  { unfold ps, we, se. clear - Hs. destruct (s_polys pk) as [|s0 [|s1 [|s2 [|s3 [|s4 [|]]]]]]; try discriminate Hs. cbn [firstn map app nth hv]. rewrite !eval_hv. replace (0 + x * 0) with (0 : F) by ring. reflexivity. }
  rewrite Em, Ee. destruct (batch draw t1 (map (com base1 s) ps) (cs_size vk + 2) x (map (fun p => hv p x) ps ++ [rv])) as [[c v'] t2].
  rewrite Z in Ov. cbn [hv] in Ov. replace (0 + x * vk_root vk * 0) with (0 : F) in Ov by ring. exact Ov.
Qed.
End Attack.
