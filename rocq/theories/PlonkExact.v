(** The verifier's decision on truthful proofs, the choice of cosets, parameters in Lagrange
    form and the domains available over BLS12-381. *)
From Coq Require Import List Arith NArith ZArith Lia Bool Permutation Field Ring.
From Verif Require Import Base Field PField Power TurboModel TurboSpec PermModel PolyModel PolySpec PolyProofs PolyLemmas PolyFft PolyProps KzgModel KzgSpec KzgProofs KzgProps PlonkModel PlonkSpec PlonkPoly PlonkProofs PlonkCore PlonkHonest PlonkComplete PlonkAttack.
Import ListNotations.
Local Open Scope F_scope.

(** ** Names of positions *)
Section Names.
Context {F : PField}.
Add Field Fnm : (f_th F).
(** No two of the representatives lie in the same coset of the [n]-th roots of unity. *)
Definition distinct_cosets (n : nat) (ks : list F) : Prop :=
  (forall k, In k ks -> k <> 0) /\ forall i j, (i < j < length ks)%nat -> fpow (nth i ks 0) n <> fpow (nth j ks 0) n.
Lemma names_distinct n om ks : (0 < n)%nat -> primitive n om -> length ks = 5%nat -> distinct_cosets n ks ->
  forall p q, (p < 5 * n)%nat -> (q < 5 * n)%nat -> name_of n om ks p = name_of n om ks q -> p = q.
Proof.
  intros Pn P L [Nz D] p q Hp Hq E. unfold name_of in E.
  assert (Dp : (p / n < 5)%nat) by (apply Nat.div_lt_upper_bound; lia). assert (Dq : (q / n < 5)%nat) by (apply Nat.div_lt_upper_bound; lia).
  assert (On : forall i, fpow (fpow om i) n = 1) by (intros i; rewrite <- (fpow_mul F), Nat.mul_comm, (fpow_mul F), (proj1 P); apply fpow_1_l).
  assert (Ec : fpow (nth (p / n) ks 0) n = fpow (nth (q / n) ks 0) n).
  { apply (f_equal (fun x => fpow x n)) in E. rewrite !fpow_mul_l, !On in E. replace (fpow (nth (p / n) ks 0) n) with (fpow (nth (p / n) ks 0) n * 1) by ring. rewrite E. ring. }
  assert (Ed : (p / n = q / n)%nat).
  { destruct (Nat.lt_trichotomy (p / n) (q / n)) as [X|[X|X]]; [|exact X|]; exfalso; [apply (D (p / n) (q / n))%nat in Ec|symmetry in Ec; apply (D (q / n) (p / n))%nat in Ec]; lia || exact Ec. }
  assert (Er : (p mod n = q mod n)%nat).
  { rewrite Ed in E. apply fmul_cancel in E; [|apply Nz, nth_In; lia]. apply (primitive_inj n om) in E; auto; try (apply Nat.mod_upper_bound; lia). }
  rewrite (Nat.div_mod p n), (Nat.div_mod q n) by lia. now rewrite Ed, Er.
Qed.
(** What [choose_ks] guarantees. *)
Lemma choose_loop_ok exp : forall cands count ks r, choose_loop (F := F) exp count ks cands = Some r ->
  exists new, r = ks ++ new /\ length new = count /\ (forall x, In x new -> x <> 0 /\ fpowN x exp <> 1 /\ In x cands) /\ (NoDup ks -> NoDup r).
Proof.
  induction cands as [|x cands IH]; intros count ks r E.
  - destruct count; [|discriminate E]. cbn in E. injection E as <-. exists []. rewrite app_nil_r. repeat split; auto; destruct H.
  - destruct count as [|c]; [cbn in E; injection E as <-; exists []; rewrite app_nil_r; repeat split; auto; destruct H|]. cbn [choose_loop] in E.
    destruct (feqb_spec x 0) as [X0|X0]; cbn [negb andb] in E.
    + destruct (IH _ _ _ E) as [new [A [B [C D]]]]. exists new. repeat split; auto; apply C in H; destruct H as [? [? ?]]; auto. now right.
    + destruct (forallb (fun y => negb (feqb y x)) ks) eqn:Ef; cbn [andb] in E.
      * destruct (feqb_spec (fpowN x exp) 1) as [X1|X1]; cbn [negb] in E.
        -- destruct (IH _ _ _ E) as [new [A [B [C D]]]]. exists new. repeat split; auto; apply C in H; destruct H as [? [? ?]]; auto. now right.
        -- destruct (IH _ _ _ E) as [new [A [B [C D]]]]. exists (x :: new). split; [rewrite A, <- app_assoc; reflexivity|]. split; [cbn; lia|]. split.
           ++ intros y [<-|Hy]; [repeat split; auto; now left|]. apply C in Hy. destruct Hy as [? [? ?]]. repeat split; auto. now right.
           ++ intros Nk. apply D. apply (Permutation_NoDup (Permutation_cons_append ks x)). constructor; [|exact Nk]. intros I. rewrite forallb_forall in Ef. specialize (Ef x I). destruct (feqb_spec x x); [discriminate|contradiction].
      * destruct (IH _ _ _ E) as [new [A [B [C D]]]]. exists new. repeat split; auto; apply C in H; destruct H as [? [? ?]]; auto. now right.
Qed.
Lemma choose_ks_ok exp cands ks : choose_ks exp cands = Some ks -> length ks = 5%nat /\ nth 0 ks 0 = (1 : F) /\ NoDup ks /\
  (forall x, In x ks -> x <> 0) /\ (forall i, (0 < i < 5)%nat -> fpowN (nth i ks 0) exp <> 1).
Proof.
  intros E. destruct (choose_loop_ok _ _ _ _ _ E) as [new [A [B [C D]]]]. subst ks. split; [cbn; lia|]. split; [reflexivity|]. split; [apply D; repeat constructor; intros []|]. split.
  - intros x [<-|H]; [apply f1_neq_0|]. now apply C.
  - intros i Hi. destruct i as [|i]; [lia|]. cbn [app nth]. apply C. apply nth_In. lia.
Qed.
(** A power of a root of unity of a divisor. *)
Lemma non_residue exp (x : F) (m : nat) : (exp mod N.of_nat m = 0)%N -> (0 < m)%nat -> fpowN x exp <> 1 -> fpow x m <> 1.
Proof.
  intros D Pm H E. apply H. apply N.mod_divide in D; [|lia]. destruct D as [c ->]. rewrite N.mul_comm, fpowN_mul, (fpowN_fpow F x), Nat2N.id, E. apply fpowN_1_l.
Qed.
End Names.

(** ** Parameters in Lagrange form *)
Section Lagrange.
Context {F : PField} {G1 G2 : Mod F} (base1 : G1).
Add Field Flg : (f_th F).
(** Element [i] commits to the polynomial that is 1 at [om^i] and 0 at the other powers. *)
Definition lagrange_params (s : F) (n : nat) (om : F) (l : kzg G1 G2) : Prop :=
  length (pp1 l) = n /\ forall i p, (i < n)%nat -> (length p <= n)%nat ->
    (forall j, (j < n)%nat -> value p (fpow om j) = if Nat.eqb j i then 1 else 0) -> nth i (pp1 l) m0 = com base1 s p.
Lemma msm_cons (v : F) values (p : G1) ps : msm (v :: values) (p :: ps) = (v *: p + msm values ps)%M. Proof. reflexivity. Qed.
Lemma msm_seq : forall (values : list F) (b : nat -> F) (ps : list G1), (length values <= length ps)%nat -> (forall i, (i < length values)%nat -> nth i ps m0 = (b i *: base1)%M) ->
  msm values ps = (fsum (map (fun i => coef values i * b i) (seq 0 (length values))) *: base1)%M.
Proof.
  induction values as [|v values IH]; intros b ps L H; [unfold msm; cbn; now rewrite smul_0l|]. destruct ps as [|p ps]; [cbn in L; lia|]. rewrite msm_cons. cbn [length seq map]. rewrite fsum_cons.
  rewrite (IH (fun i => b (S i)) ps).
  - pose proof (H 0%nat) as H0. cbn [nth length] in H0. rewrite H0 by lia. rewrite <- seq_shift, map_map. unfold coef. cbn [nth]. module_eq.
  - cbn in L. lia.
  - intros i Hi. specialize (H (S i)). cbn [nth length] in H. apply H. lia.
Qed.
Lemma fsum_single (f : nat -> F) i : forall n, (i < n)%nat -> fsum (map (fun a => if Nat.eqb a i then f a else 0) (seq 0 n)) = f i.
Proof.
  induction n as [|n IH]; intros H; [lia|]. rewrite seq_S, map_app, fsum_app. cbn [map Nat.add]. unfold fsum at 2. cbn [fold_right].
  destruct (Nat.eqb_spec n i) as [->|X].
  - rewrite (fsum_zero nat _ (seq 0 i)); [ring|]. intros a Ha. apply in_seq in Ha. destruct (Nat.eqb_spec a i); [lia|reflexivity].
  - rewrite IH by lia. ring.
Qed.
Lemma nth_firstn_lt {A} (d : A) : forall k l i, (i < k)%nat -> nth i (firstn k l) d = nth i l d.
Proof. induction k as [|k IH]; intros [|a l] i H; try lia; try reflexivity. destruct i as [|i]; [reflexivity|]. cbn [firstn nth]. apply IH. lia. Qed.
Lemma lagrange_params_ready s n om (l : kzg G1 G2) : supported n -> primitive n om -> (N.of_nat n < 2 ^ 32)%N -> lagrange_params s n om l -> lagrange_ready base1 s n om (Some l).
Proof.
  intros Sn P B [Lp H] values p Lv Ln V. pose proof (supported_pos n Sn) as Pn.
  set (b := fun i => lc n om i * fprod (map (fun j => s - fpow om j) (others n i))).
  assert (Hb : forall i, (i < n)%nat -> nth i (pp1 l) m0 = (b i *: base1)%M).
  { intros i Hi. destruct (C44_interpolation (map (fun j => if Nat.eqb j i then 1 else 0) (seq 0 n)) om n Sn P B ltac:(now rewrite map_length, seq_length)) as [q [_ [Lq [Vq _]]]].
    assert (Vq' : forall j, (j < n)%nat -> value q (fpow om j) = if Nat.eqb j i then 1 else 0).
    { intros j Hj. rewrite Vq by exact Hj. unfold coef. apply (map_nth_vals (fun j => if Nat.eqb j i then 1 else 0)). exact Hj. }
    rewrite (H i q Hi Lq Vq'). unfold com. f_equal. rewrite <- hv_value. rewrite (lagrange_all n om Pn P q (fun j => if Nat.eqb j i then 1 else 0) Lq) by (intros j Hj; rewrite hv_value; now apply Vq').
    unfold b. rewrite <- (fsum_single (fun a => lc n om a * fprod (map (fun j => s - fpow om j) (others n a))) i n Hi). apply fsum_ext. intros a _. destruct (Nat.eqb a i); ring. }
  unfold commit, from_coefs. set (tv := trim values).
  assert (Nt : tv <> []) by (apply normal_nonempty, trim_normal; destruct values; [cbn in Lv; lia|discriminate]).
  assert (Lt : (length tv <= n)%nat) by (rewrite <- Lv; apply trim_len).
  assert (Dt : (degree tv + 1 = length tv)%nat) by (unfold degree; destruct tv; [contradiction|cbn [length]; lia]). rewrite Dt, Lp.
  destruct (Nat.ltb_spec n (length tv)) as [X|_]; [lia|]. f_equal.
  rewrite (msm_seq tv b) by (try (rewrite firstn_length; lia); intros i Hi; rewrite nth_firstn_lt by exact Hi; apply Hb; lia).
  unfold com. f_equal. rewrite <- hv_value, (lagrange_all n om Pn P p (coef values) Ln) by (intros i Hi; rewrite hv_value; now apply V).
  assert (Es : seq 0 n = seq 0 (length tv) ++ seq (length tv) (n - length tv)) by (pose proof (seq_app (length tv) (n - length tv) 0) as Q; replace (length tv + (n - length tv))%nat with n in Q by lia; exact Q). rewrite Es. rewrite map_app, fsum_app.
  rewrite (fsum_zero nat _ (seq (length tv) (n - length tv))).
  - assert (X : forall a c : F, a = c -> a = c + 0) by (intros a c ->; ring). apply X. apply fsum_ext. intros i _. unfold b. rewrite <- (trim_same values i). fold tv. ring.
  - intros i Hi. apply in_seq in Hi. rewrite <- (trim_same values i). fold tv. unfold coef. rewrite nth_overflow by lia. ring.
Qed.
End Lagrange.

(** ** The verifier's decision on truthful proofs *)
Section Exact.
Context {F : PField} {G1 G2 GT : Mod F} (e : G1 -> G2 -> GT) (base1 : G1) (base2 : G2) (pairing : pairing_for e base2).
Context (draw : list (tmsg G1) -> F) (cdraw : nat -> list (tmsg G1) -> F).
Add Field Fxt : (f_th F).
Notation setup := (setup base1 base2).
Lemma opening_gap N s t ps r z x x2 d rv u q q2 t1 : (forall p, In p (ps ++ [r]) -> (length p <= S N)%nat) -> (length z <= S N)%nat -> (degree z <= d)%nat -> base1 <> m0 -> (forall t, draw t <> 0) ->
  batch_prove draw (setup N s) t (ps ++ [r]) x d = Ok (q, t1) -> prove (setup N s) z x2 d = Ok q2 ->
  let '(c, v, _) := batch draw t (map (com base1 s) (ps ++ [r])) d x (map (fun p => hv p x) ps ++ [rv]) in
  batch_verify_diff_points e (setup N s) [c; com base1 s z] [x; x2] [v; hv z x2] [q; q2] u = Ok tt <-> rv = hv r x.
Proof.
  intros Lp Lz D Nb Nd Eq E2. assert (Np : ps ++ [r] <> []) by (destruct ps; discriminate).
  destruct (batch_prove_ok base1 base2 draw N s t (ps ++ [r]) x d Np Lp) as [q' [Eq' [_ V]]]. destruct (prove_ok base1 base2 N s z x2 d Lz D) as [q2' [E2' V2]].
  rewrite Eq' in Eq. apply Ok_inj in Eq. injection Eq as <- _. rewrite E2' in E2. apply Ok_inj in E2. subst q2.
  unfold batch, challenge in *. cbn [fst] in V. rewrite batch_sum_ok by (rewrite map_length, !app_length, map_length; reflexivity).
  set (alpha := draw _) in *. assert (Na : alpha <> 0) by apply Nd. rewrite (C21_two_points e base1 base2 pairing), wsum_com.
  assert (A : ((s - x) *: com base1 s q' = (hv (map (fun p => hv p s) (ps ++ [r])) alpha - hv (map (fun p => hv p x) (ps ++ [r])) alpha) *: base1)%M) by (rewrite V; unfold com; rewrite <- hv_value, smul_smul; reflexivity).
  assert (B : ((s - x2) *: com base1 s q2' = (hv z s - hv z x2) *: base1)%M) by (rewrite V2; unfold com; rewrite <- hv_value, smul_smul; reflexivity).
  rewrite A, B. unfold com. rewrite <- (hv_value z). rewrite (map_app (fun p => hv p x)). cbn [map]. rewrite !hv_app, map_length. cbn [hv].
  match goal with |- (?l = m0)%M <-> _ => replace l with ((fpow alpha (length ps) * (rv - hv r x)) *: base1)%M by module_eq end. split; intros H.
  - apply smul_eq_0 in H. destruct H as [H|H]; [|contradiction]. apply fmul_0 in H. destruct H as [H|H]; [now apply fpow_neq_0 in H|now apply (proj1 (fsub_0 F _ _))].
  - subst rv. replace (fpow alpha (length ps) * (hv r x - hv r x)) with (0 : F) by ring. apply smul_0l.
Qed.
(** A proof that commits to the polynomials [ws], [z], [ts], states their true values and
    opens honestly is accepted iff the equation holds at the challenge. *)
Lemma verifier_exact N s t size (pk : pparams G1) ws z ts pi pip (pf : proof G1) q2 : let vk := pk_vk pk in
  let ch := fst (compute_challenges cdraw (tr_init t vk pi) size pf) in let t1 := snd (compute_challenges cdraw (tr_init t vk pi) size pf) in let x := zeta ch in
  let n := cs_size vk in let zh := pow_limbs x [N.of_nat n] - 1 in
  base1 <> m0 -> (forall t, draw t <> 0) ->
  length (q_polys pk) = 13%nat -> length (s_polys pk) = 5%nat -> length (vk_k vk) = 5%nat -> length ws = 5%nat -> ts <> [] ->
  (forall p, In p (q_polys pk ++ s_polys pk ++ [qb_poly pk] ++ ws ++ [z] ++ ts) -> (length p <= S N)%nat) -> (degree z <= n + 2)%nat ->
  cm_q vk = map (com base1 s) (q_polys pk) -> cm_s vk = map (com base1 s) (s_polys pk) -> cm_qb vk = com base1 s (qb_poly pk) ->
  x <> 1 -> eval_pi_poly vk pi zh x = Ok (eval pip x) ->
  pf_w pf = map (com base1 s) ws -> pf_z pf = com base1 s z -> pf_t pf = map (com base1 s) ts ->
  ev_w pf = map (fun p => eval p x) ws -> ev_s pf = map (fun p => eval p x) (firstn 4 (s_polys pk)) -> ev_zw pf = eval z (vk_root vk * x) ->
  (forall r, r_poly pk z (ev_w pf) (ev_s pf) (ev_zw pf) ch ts (zh * finv (x - 1)) zh (n + 2) = Ok r ->
     exists t2, batch_prove draw (setup N s) t1 (ws ++ firstn 4 (s_polys pk) ++ [r]) x (n + 2) = Ok (open_z pf, t2)) ->
  prove (setup N s) z (x * vk_root vk) (n + 2) = Ok q2 -> open_zw pf = q2 ->
  verifier e draw cdraw t (setup N s) size vk pi pf = Ok tt <-> equation_holds pk n ws z ts pip ch.
Proof.
  intros vk ch t1 x n zh Nb Nd Lq Ls Lk Lw Nt LN Dz Cq Cs Cb Nx Epi Ew Ez Et Vw Vs Vz Ho Hp Hp2.
  assert (Efl : first_lagrange n x = Ok (zh, zh * finv (x - 1))).
  { unfold first_lagrange. destruct (feqb_spec (x - 1) 0) as [X|_]; [exfalso; apply Nx; now apply (proj1 (fsub_0 F _ _))|reflexivity]. }
  assert (Lev : length (ev_w pf) = 5%nat) by (rewrite Vw, map_length; exact Lw). assert (Les : length (ev_s pf) = 4%nat) by (rewrite Vs, map_length, firstn_length, Ls; reflexivity).
  destruct (r_eval_total ch pf (eval pip x) (zh * finv (x - 1)) Lev Les) as [rv Erv].
  destruct (r_commitment_total vk (pf_z pf) (ev_w pf) (ev_s pf) (ev_zw pf) ch (pf_t pf) (zh * finv (x - 1)) zh (n + 2)) as [cr Ecr]; try assumption; try (rewrite ?Cq, ?Cs, ?map_length; assumption).
  { rewrite Et. destruct ts; [contradiction|discriminate]. }
  (* the polynomial behind the commitment *)
  assert (Er : exists r, r_poly pk z (ev_w pf) (ev_s pf) (ev_zw pf) ch ts (zh * finv (x - 1)) zh (n + 2) = Ok r /\ cr = com base1 s r /\ (length r <= S N)%nat).
  { unfold r_commitment in Ecr. unfold r_poly. rewrite Cs, Cq, Cb, Ez, Et in Ecr. rewrite (idx_nth (map (com base1 s) (s_polys pk)) 4 (com base1 s [])) in Ecr by (rewrite map_length; lia). rewrite (idx_nth (s_polys pk) 4 []) by lia. rewrite map_nth in Ecr.
    destruct (ev_w pf) as [|w0 [|w1 [|w2 [|w3 [|w4 [|]]]]]]; try discriminate Lev. cbn [eval_selector_multipliers unwrap bind] in *. fold vk.
    match type of Ecr with r_combine _ _ _ ?a _ _ ?d _ _ ?h ?i ?j ?k _ ?mm ?nn ?o = _ => pose proof (r_combine_com base1 s a (q_polys pk) (qb_poly pk) d (nth 4 (s_polys pk) []) z h i j k ts mm nn o) as X end.
    rewrite Ecr in X. match type of X with rres _ ?y _ => destruct y as [r| |] eqn:E9; cbn [rres] in X; try contradiction end. exists r. split; [reflexivity|]. split; [exact X|].
    eapply r_combine_len; [..|exact E9].
    - intros q Hq. apply LN. apply in_app_iff. now left.
    - apply LN. rewrite !in_app_iff. cbn [In]. auto.
    - apply LN. rewrite !in_app_iff. right. left. apply nth_In. lia.
    - apply LN. rewrite !in_app_iff. cbn [In]. auto 15.
    - intros q Hq. apply LN. rewrite !in_app_iff. auto 15. }
  destruct Er as [r [Er [-> Lr]]]. destruct (Ho r Er) as [t2 Ob].
  assert (Mid : verifier e draw cdraw t (setup N s) size vk pi pf = Ok tt <-> rv = hv r x).
  { unfold verifier. assert (Ec : compute_challenges cdraw (tr_init t vk pi) size pf = (ch, t1)) by (unfold ch, t1; now destruct (compute_challenges cdraw (tr_init t vk pi) size pf)). rewrite Ec.
    change (first_lagrange (cs_size vk) (zeta ch)) with (first_lagrange n x). rewrite Efl. cbn [bind fst snd]. change (zeta ch) with x. rewrite Epi. cbn [bind]. rewrite Erv. cbn [bind]. change (cs_size vk) with n. rewrite Ecr. cbn [bind].
    pose proof (opening_gap N s t1 (ws ++ firstn 4 (s_polys pk)) r z x (x * vk_root vk) (n + 2) rv (u ch) (open_z pf) (open_zw pf) t2) as G.
    rewrite <- (app_assoc ws) in G. rewrite Ew, Cs, Ez.
    replace (map (com base1 s) ws ++ firstn 4 (map (com base1 s) (s_polys pk)) ++ [com base1 s r]) with (map (com base1 s) (ws ++ firstn 4 (s_polys pk) ++ [r])) by (rewrite !map_app, firstn_map; reflexivity).
    replace (ev_w pf ++ ev_s pf ++ [rv]) with (map (fun p => hv p x) (ws ++ firstn 4 (s_polys pk)) ++ [rv]).
    2: { rewrite Vw, Vs, map_app, <- app_assoc. f_equal; [|f_equal]; apply map_ext; intros p; now rewrite eval_hv. }
    replace (ev_zw pf) with (hv z (x * vk_root vk)) by (rewrite Vz, eval_hv; f_equal; ring).
    destruct (batch draw t1 _ (n + 2) x _) as [[c v] t3]. apply G; auto.
    - intros p Hi. rewrite !in_app_iff in Hi. cbn [In] in Hi. destruct Hi as [Hi|[Hi|[<-|[]]]]; [apply LN; rewrite !in_app_iff; auto 15| |exact Lr]. apply LN. rewrite !in_app_iff. right. left. rewrite <- (firstn_skipn 4 (s_polys pk)). apply in_app_iff. now left.
    - apply LN. rewrite !in_app_iff. cbn [In]. auto 15.
    - now rewrite Hp2. }
  rewrite Mid. unfold equation_holds. cbv zeta. fold x. fold vk. rewrite <- Vw, <- Vs, <- Vz.
  assert (Erv' : r_eval_zeta ch (mkPf [] [] (m0 : G1) (ev_w pf) (ev_zw pf) (ev_s pf) m0 m0) (eval pip x) (zh * finv (x - 1)) = Ok rv) by (rewrite <- Erv; reflexivity).
  split.
  - intros ->. exists zh, (zh * finv (x - 1)), r. split; [exact Efl|]. split; [exact Er|]. rewrite Erv'. now rewrite eval_hv.
  - intros [zh' [l1' [r' [A [B C]]]]]. rewrite Efl in A. apply Ok_inj in A. injection A as <- <-. rewrite Er in B. apply Ok_inj in B. subst r'. rewrite Erv' in C. apply Ok_inj in C. now rewrite eval_hv in C.
Qed.
End Exact.

(** ** Domains over BLS12-381 *)
Lemma bls_two_adicity : ((bls_q - 1) mod (3 * 2 ^ 32) = 0)%N. Proof. vm_compute. reflexivity. Qed.
Lemma bls_domain k : (k <= 28)%nat -> let m := quot_eval_dom_size (2 ^ k) in
  supported (2 ^ k) /\ supported m /\ (N.of_nat m < 2 ^ 32)%N /\ ((bls_q - 1) / 2 mod N.of_nat m = 0)%N /\
  exists wm : BLS, nth_root_of_unity (fofZ 7) bls_q m = Ok (Some wm) /\ primitive m wm.
Proof.
  intros Hk m.
  assert (Em : exists j, (j <= 29)%nat /\ (m = 2 ^ j \/ m = 3 * 2 ^ j)%nat).
  { unfold m, quot_eval_dom_size. destruct (Nat.ltb_spec 8 (2 ^ k)) as [H|H].
    - exists (S k). split; [lia|]. right. cbn [Nat.pow]. lia.
    - exists (k + 4)%nat. assert (k <= 3)%nat. { destruct (le_lt_dec k 3) as [A|A]; [exact A|]. assert (2 ^ 4 <= 2 ^ k)%nat by (apply Nat.pow_le_mono_r; lia). cbn in H0. lia. } split; [lia|]. left. rewrite Nat.pow_add_r. cbn. lia. }
  destruct Em as [j [Hj Em]].
  assert (Em' : (N.of_nat m = 2 ^ N.of_nat j \/ N.of_nat m = 3 * 2 ^ N.of_nat j)%N).
  { assert (X : forall i, N.of_nat (2 ^ i) = (2 ^ N.of_nat i)%N) by (induction i as [|i IH]; [reflexivity|]; cbn [Nat.pow]; rewrite Nat2N.inj_succ, N.pow_succ_r' , <- IH; lia). rewrite <- X. lia. }
  assert (Pj : (2 ^ N.of_nat j <= 2 ^ 29)%N) by (apply N.pow_le_mono_r; lia).
  assert (Pj0 : (2 ^ N.of_nat j <> 0)%N) by (apply N.pow_nonzero; discriminate).
  assert (D : ((bls_q - 1) / 2 mod N.of_nat m = 0)%N).
  { assert (Q : exists c, ((bls_q - 1) / 2 = c * (3 * 2 ^ 31))%N) by (exists ((bls_q - 1) / 2 / (3 * 2 ^ 31))%N; vm_compute; reflexivity). destruct Q as [c ->].
    apply N.mod_divide; [lia|]. assert (E31 : (2 ^ 31 = 2 ^ (31 - N.of_nat j) * 2 ^ N.of_nat j)%N) by (rewrite <- N.pow_add_r; f_equal; lia). rewrite E31.
    destruct Em' as [->| ->]; [exists (c * 3 * 2 ^ (31 - N.of_nat j))%N|exists (c * 2 ^ (31 - N.of_nat j))%N]; lia. }
  assert (Sm : supported m) by (exists j; exact Em).
  split; [exists k; now left|]. split; [exact Sm|]. split; [change (2 ^ 32)%N with (8 * 2 ^ 29)%N; destruct Em' as [->| ->]; lia|]. split; [exact D|].
  destruct (sixth (fofZ 7 : BLS) _ _ _ (proj1 bls_div6) (proj2 bls_div6) bls_sixth) as [G2 G3].
  apply (C44_root_primitive (fofZ 7 : BLS) bls_q m Sm); auto using bls_q_gt, bls_order.
  apply N.mod_divide in D; [|destruct Em' as [->| ->]; lia]. apply N.mod_divide; [destruct Em' as [->| ->]; lia|]. destruct D as [c D]. exists (2 * c)%N.
  assert (E2 : (bls_q - 1 = 2 * ((bls_q - 1) / 2))%N) by (vm_compute; reflexivity). rewrite E2, D. lia.
Qed.
