(** Completeness of the PLONK model. *)
From Coq Require Import List Arith NArith ZArith Lia Bool Permutation Field Ring.
From Verif Require Import Base Field PField Power TurboModel TurboSpec PermModel PermSpec PermProofs PermProps PolyModel PolySpec PolyProofs PolyLemmas PolyFft PolyProps KzgModel KzgSpec KzgProofs KzgProps PlonkModel PlonkPoly PlonkProofs PlonkCore PlonkHonest.
Import ListNotations.
Local Open Scope F_scope.

Section Openings.
Context {F : Field} {G1 G2 GT : Mod F} (e : G1 -> G2 -> GT) (base1 : G1) (base2 : G2) (pairing : pairing_for e base2).
Context (draw : list (tmsg G1) -> F).
Add Field Fop : (f_th F).
Notation setup := (setup base1 base2).
Notation com := (com base1).
Lemma batch_sum_extra (alpha : F) extra : forall (cs : list G1) vs mult c v, length cs = length vs ->
  batch_sum cs (vs ++ extra) alpha mult c v = batch_sum cs vs alpha mult c v.
Proof.
  induction cs as [|c0 cs IH]; intros [|v0 vs] mult c v L; try discriminate; cbn [app batch_sum]; [destruct extra; reflexivity|]. apply IH. now injection L.
Qed.
Lemma wsum_com (s alpha : F) ps : wsum alpha (map (com s) ps) = (hv (map (fun p => hv p s) ps) alpha *: base1)%M.
Proof. induction ps as [|p ps IH]; cbn [map wsum hv]; [module_eq|]. rewrite IH. unfold KzgSpec.com. rewrite <- (hv_value p). module_eq. Qed.
(** Honest openings at two points pass, with any values beyond the last commitment. *)
Lemma two_openings N s t ps z x x2 d extra u : ps <> [] -> (forall p, In p ps -> (length p <= S N)%nat) -> (length z <= S N)%nat -> (degree z <= d)%nat ->
  exists q q2 t', batch_prove draw (setup N s) t ps x d = Ok (com s q, t') /\ prove (setup N s) z x2 d = Ok (com s q2) /\
  let '(c, v, _) := batch draw t (map (com s) ps) d x (map (fun p => hv p x) ps ++ extra) in
  batch_verify_diff_points e (setup N s) [c; com s z] [x; x2] [v; hv z x2] [com s q; com s q2] u = Ok tt.
Proof.
  intros Np Lp Lz D. destruct (batch_prove_ok base1 base2 draw N s t ps x d Np Lp) as [q [Eq [_ V]]]. destruct (prove_ok base1 base2 N s z x2 d Lz D) as [q2 [E2 V2]].
  exists q, q2. eexists. split; [exact Eq|]. split; [exact E2|]. unfold batch, challenge in *. cbn [fst] in V.
  rewrite batch_sum_extra, batch_sum_ok by now rewrite !map_length. set (alpha := draw _) in *.
  apply (C21_two_points e base1 base2 pairing). rewrite wsum_com.
  assert (A : ((s - x) *: com s q = (hv (map (fun p => hv p s) ps) alpha - hv (map (fun p => hv p x) ps) alpha) *: base1)%M).
  { rewrite V. unfold KzgSpec.com. rewrite <- hv_value, smul_smul. reflexivity. }
  assert (B : ((s - x2) *: com s q2 = (hv z s - hv z x2) *: base1)%M).
  { rewrite V2. unfold KzgSpec.com. rewrite <- hv_value, smul_smul. reflexivity. }
  rewrite A, B. unfold KzgSpec.com. rewrite <- (hv_value z). module_eq.
Qed.
End Openings.

(** What the parameters in Lagrange form must provide: the commitment to a vector of values on
    the group is the commitment to the polynomial through them. *)
Definition lagrange_ready {F : Field} {G1 G2 : Mod F} (base1 : G1) (s : F) (n : nat) (om : F) (lag : option (kzg G1 G2)) : Prop :=
  match lag with
  | None => True
  | Some l => forall values p, length values = n -> (length p <= n)%nat -> (forall i, (i < n)%nat -> value p (fpow om i) = coef values i) ->
      commit l (from_coefs values) = Ok (com base1 s p)
  end.

Section Complete.
Context {F : PField} {G1 G2 GT : Mod F} (e : G1 -> G2 -> GT) (base1 : G1) (base2 : G2) (pairing : pairing_for e base2).
Context (gen : F) (order : N) (draw : list (tmsg G1) -> F) (cdraw : nat -> list (tmsg G1) -> F).
Add Field Fcm : (f_th F).
Notation poly := (list F).
Context (gs : list (gate F)) (nv : nat) (N : nat) (s : F) (lag0 : option (kzg G1 G2)) (ks : list F) (wm : F) (perm : list nat).
Notation n := (length gs).
Notation m := (quot_eval_dom_size (length gs)).
Notation k1 := (nth 1 ks 0).
Let om := fpow wm (m / n).
Notation K := (setup base1 base2 N s).
Notation com := (com base1 s).
Hypothesis (Sn : supported n) (Sm : supported m) (Bm : (N.of_nat m < 2 ^ 32)%N).
Hypothesis (Hroot : nth_root_of_unity gen order m = Ok (Some wm)) (Pm : primitive m wm).
Hypothesis (Lk : length ks = 5%nat) (K0 : nth 0 ks 0 = 1) (Nk : k1 <> 0) (Ck : fpow k1 m <> 1).
Hypothesis (HN : (n + 2 <= N)%nat).
Hypothesis (Hlag : lagrange_ready base1 s n om (usable lag0 n)).
Hypothesis (Hperm : compute_permutation nv (wires gs) = Ok perm).

Lemma Pn : (0 < n)%nat. Proof. now apply supported_pos. Qed.
Lemma m_cases : (m = n * 6 /\ (8 < n)%nat \/ m = n * 16 /\ (n <= 8)%nat)%nat.
Proof. unfold quot_eval_dom_size. destruct (Nat.ltb_spec 8 n); [left|right]; lia. Qed.
Lemma factor_pos : (0 < m / n)%nat /\ (n * (m / n) = m)%nat.
Proof. pose proof Pn. destruct m_cases as [[E _]|[E _]]; rewrite E, Nat.mul_comm, Nat.div_mul by lia; lia. Qed.
Lemma m_big : (5 * n + 8 <= m)%nat. Proof. pose proof Pn. destruct m_cases as [[E J]|[E J]]; rewrite E; lia. Qed.
Lemma Pom : primitive n om. Proof. destruct factor_pos as [A B]. now apply (primitive_power m wm n (m / n)). Qed.
Lemma Bn : (N.of_nat n < 2 ^ 32)%N. Proof. pose proof m_big. lia. Qed.

Definition interp (ev : list F) : poly := match ffti om ev n with Ok p => p | _ => [] end.
Definition cev (p : poly) : list F := map (fun i => hv p (k1 * fpow wm i)) (seq 0 m).
Lemma interp_ok ev : (length ev <= n)%nat -> ffti om ev n = Ok (interp ev) /\ normal (interp ev) /\ (length (interp ev) <= n)%nat /\
  forall i, (i < n)%nat -> hv (interp ev) (fpow om i) = coef ev i.
Proof. intros L. destruct (ffti_ok n om ev Sn Pom Bn L) as [p [E [A [B C]]]]. unfold interp. rewrite E. auto. Qed.
Lemma cev_ok p : p <> [] -> (length p <= m)%nat -> coset_fft p wm m k1 = Ok (cev p).
Proof. intros A B. apply coset_fft_ok; auto. Qed.
Lemma commit_ok p : (length p <= n + 3)%nat -> commit K p = Ok (com p).
Proof. intros L. rewrite commit_setup. destruct (Nat.leb_spec (length p) (Datatypes.S N)); [reflexivity|lia]. Qed.
Lemma column_commit ev : length ev = n -> commit_column K (usable lag0 n) ev (interp ev) = Ok (com (interp ev)).
Proof.
  intros L. destruct (interp_ok ev ltac:(lia)) as [E [A [B C]]]. unfold commit_column. unfold lagrange_ready in Hlag. destruct (usable lag0 n) as [l|]; [|apply commit_ok; lia].
  apply Hlag; auto. intros i Hi. rewrite <- hv_value. now apply C.
Qed.
Lemma column_ok ev : length ev = n -> index_column K (usable lag0 n) n m om wm k1 ev = Ok (interp ev, cev (interp ev), com (interp ev)).
Proof.
  intros L. destruct (interp_ok ev ltac:(lia)) as [E [A [B C]]]. pose proof m_big. unfold index_column. rewrite E. cbn [bind]. rewrite cev_ok by (try apply normal_nonempty; auto; lia). cbn [bind].
  rewrite column_commit by exact L. reflexivity.
Qed.
(** The first Lagrange polynomial (times n) and the vanishing polynomial. *)
Definition l1p : poly := interp [fofN (N.of_nat n)].
Lemma l1_value x : (x - 1) * hv l1p x = fpow x n - 1.
Proof.
  pose proof Pn. destruct (interp_ok [fofN (N.of_nat n)] ltac:(cbn; lia)) as [_ [_ [B C]]].
  assert (G : forall (y : F) k, hv (repeat 1 k) y = fsum (map (fun j => fpow y j) (seq 0 k))).
  { intros y k. rewrite hv_sum, repeat_length. apply fsum_ext. intros i Hi. apply in_seq in Hi. unfold coef. rewrite nth_indep with (d' := 1) by (rewrite repeat_length; lia). rewrite nth_repeat. ring. }
  assert (E : hv l1p x = hv (repeat 1 n) x).
  { apply hv_same. apply (same_on_domain n om); [apply Pom|exact B|rewrite repeat_length; lia|]. intros i Hi. unfold l1p. rewrite C by exact Hi. rewrite G, geo_root by (apply fpow_root, Pom).
    destruct (feqb_spec (fpow om i) 1) as [X|X].
    - assert (i = 0%nat) as -> by (destruct (Nat.eq_dec i 0); [assumption|exfalso; apply (proj2 Pom i); [lia|exact X]]). reflexivity.
    - destruct i as [|i]; [exfalso; apply X; reflexivity|]. unfold coef. cbn [nth]. now destruct i. }
  rewrite E, G. apply geometric.
Qed.
Definition zhp : poly := from_coefs (fopp 1 :: repeat 0 (n - 1) ++ [1]).
Lemma zh_value x : hv zhp x = fpow x n - 1.
Proof.
  pose proof Pn. unfold zhp, from_coefs. rewrite trim_hv. cbn [hv]. rewrite hv_monic. replace n with (Datatypes.S (n - 1)) at 2 by lia. cbn [fpow]. ring.
Qed.
Lemma coset_outside i : fpow (k1 * fpow wm i) n - 1 <> 0.
Proof.
  intros X. apply (proj1 (fsub_0 F _ _)) in X. apply Ck. destruct factor_pos as [_ E]. 
  assert (Y : fpow (k1 * fpow wm i) m = 1) by (rewrite <- E, fpow_mul, X; apply fpow_1_l).
  rewrite fpow_mul_l, (fpow_root m wm i Pm) in Y. rewrite <- Y. ring.
Qed.
Lemma root_index : idx (powers wm m) ((m / n) mod m) = Ok om.
Proof.
  pose proof m_big. destruct factor_pos as [A B]. pose proof (Nat.mod_upper_bound (m / n) m ltac:(lia)) as U. rewrite (idx_nth _ _ 0) by (rewrite powers_len; exact U).
  rewrite powers_nth by exact U. f_equal. unfold om. rewrite (Nat.div_mod (m / n) m) at 2 by lia. rewrite fpow_add, fpow_mul, (proj1 Pm), fpow_1_l. ring.
Qed.
Lemma lag_const_ok : mapM (compute_lagrange_constant (powers om n)) (pub_constraints gs) = Ok (map (lc n om) (pub_constraints gs)).
Proof.
  apply mapM_pure. intros i Hi. unfold pub_constraints in Hi. apply in_map_iff in Hi. destruct Hi as [iv [<- Hi]]. apply (pub_from_lt n Pn) in Hi. apply lc_ok; [apply Pn|apply Pom|lia].
Qed.
Definition scols : list (list F) := map (fun i => firstn n (skipn (i * n) (map (encode_perm (powers om n) ks) perm))) (seq 0 5).
Definition qp := map interp (selector_cols gs).
Definition sp := map interp scols.
Definition qbp := interp (bool_col gs).
Definition vk0 : vparams G1 := mkVP (map com qp) (map com sp) (com qbp) ks om n (pub_constraints gs) (map (lc n om) (pub_constraints gs)).
Definition pk0 : pparams G1 := mkPP qp sp qbp vk0 (powers om n) (map (fun x => k1 * x) (powers wm m)) wm (cev l1p)
  (map (fun i => finv (fpow (k1 * fpow wm i) n - 1)) (seq 0 m)) (map cev qp) (map cev sp) (cev qbp).
Lemma wires_len : length (wires gs) = (5 * n)%nat.
Proof. unfold wires. rewrite !app_length, !map_length. lia. Qed.
Lemma perm_len : length perm = (5 * n)%nat.
Proof. destruct (compute_permutation_next _ _ _ Hperm) as [L _]. now rewrite L, wires_len. Qed.
Lemma slice_len {A} (l : list A) j : length l = (5 * n)%nat -> (j < 5)%nat -> length (firstn n (skipn (j * n) l)) = n.
Proof. intros L H. rewrite firstn_length, skipn_length, L. nia. Qed.
Lemma scols_len c : In c scols -> length c = n.
Proof. unfold scols. intros H. apply in_map_iff in H. destruct H as [j [<- Hj]]. apply in_seq in Hj. apply slice_len; [rewrite map_length; apply perm_len|lia]. Qed.
Lemma selector_len c : In c (selector_cols gs) -> length c = n.
Proof. unfold selector_cols. intros H. repeat (destruct H as [<-|H]; [apply map_length|]). destruct H. Qed.
Lemma indexer_ok : indexer gen order gs nv K lag0 ks = Ok pk0.
Proof.
  pose proof Pn. pose proof m_big. destruct factor_pos as [A B]. unfold indexer. destruct (Nat.eqb_spec n 0) as [E0|_]; [lia|]. rewrite B, Nat.eqb_refl. cbn [negb].
  rewrite Hroot. cbn [bind]. rewrite build_group_ok by (auto; lia). cbn [bind]. rewrite root_index. cbn [bind].
  rewrite build_group_ok by (try apply Pom; lia). cbn [bind]. rewrite (idx_nth ks 1 0) by lia. cbn [bind]. rewrite Hperm. cbn [bind].
  rewrite (mapM_pure _ (fun j => (interp (firstn n (skipn (j * n) (map (encode_perm (powers om n) ks) perm))), cev (interp (firstn n (skipn (j * n) (map (encode_perm (powers om n) ks) perm)))), com (interp (firstn n (skipn (j * n) (map (encode_perm (powers om n) ks) perm))))))).
  2: { intros j Hj. apply in_seq in Hj. apply column_ok. apply slice_len; [rewrite map_length; apply perm_len|lia]. }
  cbn [bind]. rewrite (mapM_pure _ (fun c => (interp c, cev (interp c), com (interp c)))) by (intros c Hc; apply column_ok; now apply selector_len).
  cbn [bind]. rewrite powers_len.
  assert (Z : from_coefs (repeat (0 : F) n) = [0]).
  { apply normal_unique; [apply trim_normal; destruct gs; [cbn in *; lia|discriminate]|now left|]. intros i. unfold from_coefs. rewrite (trim_same _ i), coef_repeat. destruct i as [|[|i]]; reflexivity. }
  rewrite Z. cbn [PolyModel.set]. assert (U : from_u32 (F := F) n = fofN (N.of_nat n)) by (unfold from_u32; rewrite N.mod_small by apply Bn; reflexivity). rewrite U.
  destruct (interp_ok [fofN (N.of_nat n)] ltac:(cbn; lia)) as [E1 [N1 [L1 _]]]. rewrite E1. cbn [bind]. fold l1p.
  rewrite cev_ok by (try apply normal_nonempty; auto; fold l1p in L1; lia). cbn [bind]. fold zhp.
  assert (Lz : (length zhp <= m)%nat) by (unfold zhp, from_coefs; etransitivity; [apply trim_len|]; cbn [length]; rewrite app_length, repeat_length; cbn [length]; lia).
  rewrite cev_ok by (try exact Lz; apply normal_nonempty, trim_normal; discriminate). cbn [bind].
  assert (Zi : mapM (fun x => if feqb x 0 then Panic else Ok (finv x)) (cev zhp) = Ok (map (fun i => finv (fpow (k1 * fpow wm i) n - 1)) (seq 0 m))).
  { rewrite (mapM_pure _ finv).
    - f_equal. unfold cev. rewrite map_map. apply map_ext. intros i. now rewrite zh_value.
    - intros x Hx. unfold cev in Hx. apply in_map_iff in Hx. destruct Hx as [i [<- _]]. rewrite zh_value. destruct (feqb_spec (fpow (k1 * fpow wm i) n - 1) 0) as [X|_]; [exfalso; now apply (coset_outside i)|reflexivity]. }
  rewrite Zi. cbn [bind]. rewrite lag_const_ok. cbn [bind]. rewrite column_ok by apply map_length. cbn [bind fst snd].
  rewrite !map_map. cbn [fst snd]. unfold pk0, vk0, qp, sp, scols. rewrite !map_map. reflexivity.
Qed.

(** ** The prover *)
Context (w : list F) (rnd : nat -> F) (t0 : list (tmsg G1)).
Notation wf := (fun v => nth v w 0).
Hypothesis (Hwires : forall g, In g gs -> wire_lt (length w) g).
Hypothesis (Hsat : Forall (fun g => gate_eq wf g /\ gate_bool wf g) gs).
Notation g0 := (gate_of (fun _ => 0)).

Definition ext : list F := map wf (wires gs).
Definition online : list F := map wf (pub_variables gs).
Definition pis : list F := map (fun i => row_pi wf (nth i gs g0)) (seq 0 n).
Definition pip : poly := interp pis.
Definition hid (bl : list F) (p : poly) : poly := match hide_polynomial bl p n with Ok q => q | _ => [] end.
Definition wcol (i : nat) : list F := firstn n (skipn (i * n) ext).
Definition wblinds (i : nat) : list F := [rnd (2 * i); rnd (2 * i + 1)]%nat.
Definition Wp (i : nat) : poly := hid (wblinds i) (interp (wcol i)).
Definition Ws : list poly := map Wp (seq 0 5).
Definition tr1 : list (tmsg G1) := (tr_init t0 vk0 online ++ map TComm (map com Ws)) ++ [TDrawn 1].
Definition ch_b : F := cdraw n tr1.
Definition tr2 : list (tmsg G1) := tr1 ++ [TDrawn 2].
Definition ch_g : F := cdraw n tr2.
Definition zevals : list F := map (zval n om ks ext perm ch_b ch_g) (seq 0 n).
Definition zblinds : list F := [rnd 10; rnd 11; rnd 12]%nat.
Definition zp : poly := hid zblinds (interp (from_coefs zevals)).
Definition tr3 : list (tmsg G1) := (tr2 ++ [TComm (com zp)]) ++ [TDrawn 0].
Definition ch_a : F := cdraw n tr3.

Lemma ext_len : length ext = (5 * n)%nat. Proof. unfold ext. now rewrite map_length, wires_len. Qed.
Lemma wires_lt v : In v (wires gs) -> (v < length w)%nat.
Proof.
  unfold wires. rewrite !in_app_iff, !in_map_iff. intros [H|[H|[H|[H|H]]]]; destruct H as [g [<- Hg]]; apply Hwires in Hg; destruct Hg as [Hg _]; lia.
Qed.
Lemma pub_var_in : forall l s iv, In iv (pub_from (F := F) s l) -> exists g, In g l /\ g_pub g = Some (snd iv).
Proof.
  induction l as [|g l IH]; intros s0 iv H; [destruct H|]. cbn [pub_from] in H. destruct (g_pub g) as [v|] eqn:E; [destruct H as [<-|H]; [exists g; split; [now left|exact E]|]|];
  apply IH in H; destruct H as [g' [A B]]; exists g'; split; auto; now right.
Qed.
Lemma pub_lt v : In v (pub_variables gs) -> (v < length w)%nat.
Proof.
  unfold pub_variables. rewrite in_map_iff. intros [iv [<- H]]. apply pub_var_in in H. destruct H as [g [A B]]. apply Hwires in A. destruct A as [_ A]. now rewrite B in A.
Qed.
Lemma ext_ok : extend_witness (wires gs) w = Ok ext.
Proof.
  unfold extend_witness, ext. apply mapM_pure. intros v Hv. apply wires_lt in Hv. now rewrite (nth_error_nth' w 0 Hv).
Qed.
Lemma online_ok : mapM (idx w) (pub_variables gs) = Ok online.
Proof. unfold online. apply mapM_pure. intros v Hv. apply idx_nth. now apply pub_lt. Qed.
Lemma pis_ok : mapM (pi_value (pub_constraints gs) online) (seq 0 n) = Ok pis.
Proof.
  unfold pis. apply mapM_pure. intros i Hi. apply in_seq in Hi. unfold pub_constraints, online, pub_variables. rewrite map_map.
  pose proof (pi_value_ok n Pn wf gs 0 i ltac:(lia)) as X. rewrite Nat.sub_0_r in X. exact X.
Qed.
Lemma wcol_len j : (j < 5)%nat -> length (wcol j) = n. Proof. apply slice_len, ext_len. Qed.
Lemma hid_ok bl p : p <> [] -> hide_polynomial bl p n = Ok (hid bl p) /\ hid bl p <> [] /\ (length (hid bl p) <= Nat.max (length p) (n + length bl))%nat /\
  forall x, hv (hid bl p) x = hv p x + (1 - fpow x n) * hv bl x.
Proof. intros H. destruct (hide_ok bl p n H) as [q [E X]]. unfold hid. rewrite E. now split. Qed.
Lemma hidden_commit ev bl : length ev = n -> (length bl <= 3)%nat ->
  match usable lag0 n with
  | Some l => let! c0 := commit l (from_coefs ev) in apply_blind_factors K c0 bl n
  | None => commit K (hid bl (interp ev)) end = Ok (com (hid bl (interp ev))).
Proof.
  intros L Lb. destruct (interp_ok ev ltac:(lia)) as [E [A [B C]]]. pose proof (normal_nonempty _ A) as Ne. destruct (hid_ok bl (interp ev) Ne) as [Eh [Nh [Lh Vh]]].
  unfold lagrange_ready in Hlag. destruct (usable lag0 n) as [l|]; [|apply commit_ok; lia].
  rewrite (Hlag ev (interp ev) L B) by (intros i Hi; rewrite <- hv_value; now apply C). cbn [bind]. unfold apply_blind_factors.
  rewrite apply_blinds_ok by lia. f_equal. unfold KzgSpec.com. rewrite <- !hv_value, Vh. cbn [fpow]. module_eq.
Qed.
Lemma wcs_ok : mapM (fun i =>
      let evals := firstn n (skipn (i * n) ext) in
      let blinds := [rnd (2 * i); rnd (2 * i + 1)]%nat in
      let! p0 := ffti om evals n in
      let! p := hide_polynomial blinds p0 n in
      let! c := match usable lag0 n with
                | Some l => let! c0 := commit l (from_coefs evals) in apply_blind_factors K c0 blinds n
                | None => commit K p end in
      Ok (p, c)) (seq 0 5) = Ok (map (fun i => (Wp i, com (Wp i))) (seq 0 5)).
Proof.
  apply mapM_pure. intros j Hj. apply in_seq in Hj. cbv zeta. fold (wcol j). fold (wblinds j).
  destruct (interp_ok (wcol j) ltac:(rewrite wcol_len; lia)) as [E [A [B C]]]. rewrite E. cbn [bind].
  destruct (hid_ok (wblinds j) (interp (wcol j)) (normal_nonempty _ A)) as [Eh _]. rewrite Eh. cbn [bind].
  rewrite (hidden_commit (wcol j) (wblinds j)) by (try apply wcol_len; cbn; lia). reflexivity.
Qed.
(** Values on the group. *)
Lemma slice_at {A} (l : list A) j i d : (i < n)%nat -> nth i (firstn n (skipn (j * n) l)) d = nth (j * n + i) l d.
Proof.
  intros H. assert (X : forall k (l : list A) i, nth i (skipn k l) d = nth (k + i) l d) by (induction k as [|k IH]; intros [|a l'] i'; try reflexivity; [now destruct i'|]; apply IH).
  rewrite <- (X (j * n)%nat l i). generalize (skipn (j * n) l). clear - H. revert i H. generalize n as k. induction k as [|k IH]; intros i H l; [lia|]. destruct l as [|a l], i as [|i]; try reflexivity. cbn. apply IH. lia.
Qed.
Lemma W_on j i : (j < 5)%nat -> (i < n)%nat -> wv Ws (fpow om i) j = nth (j * n + i) ext 0.
Proof.
  intros Hj Hi. unfold wv, Ws. rewrite (nth_indep _ [] (Wp 0)) by (rewrite map_length, seq_length; exact Hj). rewrite map_nth, seq_nth by exact Hj. cbn [Nat.add].
  destruct (interp_ok (wcol j) ltac:(rewrite wcol_len; lia)) as [E [A [B C]]]. destruct (hid_ok (wblinds j) (interp (wcol j)) (normal_nonempty _ A)) as [_ [_ [_ V]]].
  unfold Wp. rewrite V, (fpow_root n om i Pom), C by exact Hi. unfold coef, wcol. rewrite slice_at by exact Hi. ring.
Qed.
Lemma W_len p : In p Ws -> p <> [] /\ (length p <= n + 2)%nat.
Proof.
  unfold Ws. rewrite in_map_iff. intros [j [<- Hj]]. apply in_seq in Hj. destruct (interp_ok (wcol j) ltac:(rewrite wcol_len; lia)) as [E [A [B C]]].
  destruct (hid_ok (wblinds j) (interp (wcol j)) (normal_nonempty _ A)) as [_ [Ne [L _]]]. split; [exact Ne|]. unfold Wp. cbn [length wblinds] in L. lia.
Qed.
Lemma interp_in (cols : list (list F)) p : (forall c, In c cols -> length c = n) -> In p (map interp cols) -> p <> [] /\ (length p <= n)%nat.
Proof. rewrite in_map_iff. intros L [c [<- Hc]]. apply L in Hc. destruct (interp_ok c ltac:(lia)) as [_ [A [B _]]]. split; [now apply normal_nonempty|exact B]. Qed.
Lemma S_on j i : (j < 5)%nat -> (i < n)%nat -> sv sp (fpow om i) j = position n om ks (nth (j * n + i) perm 0%nat).
Proof.
  intros Hj Hi. unfold sv, sp, scols. rewrite map_map. rewrite (nth_indep _ [] (interp (firstn n (skipn (0 * n) (map (encode_perm (powers om n) ks) perm))))) by (rewrite map_length, seq_length; exact Hj).
  rewrite (map_nth (fun j => interp (firstn n (skipn (j * n) (map (encode_perm (powers om n) ks) perm))))), seq_nth by exact Hj. cbn [Nat.add].
  destruct (interp_ok (firstn n (skipn (j * n) (map (encode_perm (powers om n) ks) perm))) ltac:(rewrite firstn_length; lia)) as [_ [_ [_ C]]].
  rewrite C by exact Hi. unfold coef. rewrite slice_at by exact Hi. rewrite (nth_indep _ 0 (encode_perm (powers om n) ks 0)) by (rewrite map_length, perm_len; nia). rewrite map_nth.
  apply encode_ok; auto using Pn. destruct (C36_bijection _ _ _ Hperm) as [_ [Bj _]]. rewrite wires_len in Bj. apply Bj. nia.
Qed.
Lemma Q_on j i : (j < 13)%nat -> (i < n)%nat -> qv qp (fpow om i) j = nth i (nth j (selector_cols gs) []) 0.
Proof.
  intros Hj Hi. unfold qv, qp. rewrite (nth_indep _ [] (interp [])) by (rewrite map_length; exact Hj). rewrite map_nth.
  assert (I : In (nth j (selector_cols gs) []) (selector_cols gs)) by (apply nth_In; exact Hj). apply selector_len in I.
  destruct (interp_ok (nth j (selector_cols gs) []) ltac:(lia)) as [_ [_ [_ C]]]. now apply C.
Qed.
Lemma qb_on i : (i < n)%nat -> hv qbp (fpow om i) = if g_bool (nth i gs g0) then 1 else 0.
Proof.
  intros Hi. unfold qbp. destruct (interp_ok (bool_col gs) ltac:(unfold bool_col; rewrite map_length; lia)) as [_ [_ [_ C]]]. rewrite C by exact Hi. unfold coef, bool_col.
  rewrite (nth_indep _ 0 ((fun g : gate F => if g_bool g then 1 else 0) g0)) by (rewrite map_length; exact Hi). now rewrite (map_nth (fun g : gate F => if g_bool g then 1 else 0)).
Qed.
Lemma pip_on i : (i < n)%nat -> hv pip (fpow om i) = row_pi wf (nth i gs g0).
Proof.
  intros Hi. unfold pip. assert (L : length pis = n) by (unfold pis; now rewrite map_length, seq_length). destruct (interp_ok pis ltac:(lia)) as [_ [_ [_ C]]]. rewrite C by exact Hi. unfold coef, pis.
  apply (map_nth_vals (fun i => row_pi wf (nth i gs g0))). exact Hi.
Qed.

Lemma ext_at (pick : nat -> gate F -> nat) j i : (j < 5)%nat -> (i < n)%nat ->
  pick 0%nat = w1 -> pick 1%nat = w2 -> pick 2%nat = w3 -> pick 3%nat = w4 -> pick 4%nat = wo -> nth (j * n + i) ext 0 = wf (pick j (nth i gs g0)).
Proof.
  intros Hj Hi P0 P1 P2 P3 P4. unfold ext. rewrite (nth_indep _ 0 (wf 0%nat)) by (rewrite map_length, wires_len; nia). rewrite (map_nth wf). f_equal. unfold wires.
  assert (X : forall f : gate F -> nat, nth i (map f gs) 0%nat = f (nth i gs g0)) by (intros f; rewrite (nth_indep _ 0%nat (f g0)) by (rewrite map_length; exact Hi); apply map_nth).
  assert (A : forall (f : gate F -> nat) l k, nth (n + k) (map f gs ++ l) 0%nat = nth k l 0%nat) by (intros f l k; rewrite app_nth2; rewrite map_length; [f_equal; lia|lia]).
  do 5 (destruct j as [|j]; [cbn [Nat.mul Nat.add]; rewrite <- ?Nat.add_assoc, ?A; try (rewrite app_nth1 by (rewrite map_length; exact Hi)); rewrite X; congruence|]). lia.
Qed.
Lemma row_sat i : (i < n)%nat -> gate_eq wf (nth i gs g0) /\ gate_bool wf (nth i gs g0).
Proof. intros Hi. rewrite Forall_forall in Hsat. apply Hsat. now apply nth_In. Qed.
Lemma row_w i : (i < n)%nat -> let g := nth i gs g0 in let x := fpow om i in
  wv Ws x 0 = wf (w1 g) /\ wv Ws x 1 = wf (w2 g) /\ wv Ws x 2 = wf (w3 g) /\ wv Ws x 3 = wf (w4 g) /\ wv Ws x 4 = wf (wo g).
Proof.
  intros Hi. cbv zeta. rewrite !W_on by lia.
  repeat split; rewrite (ext_at (fun j => match j with 0 => w1 | 1 => w2 | 2 => w3 | 3 => w4 | _ => wo end)) by (try reflexivity; lia); reflexivity.
Qed.
Lemma gates_on i : (i < n)%nat -> num_gate Ws qp pip (fpow om i) = 0.
Proof.
  intros Hi. destruct (row_sat i Hi) as [E _]. destruct (row_w i Hi) as [A0 [A1 [A2 [A3 A4]]]]. unfold num_gate. rewrite A0, A1, A2, A3, A4, (pip_on i Hi).
  unfold gate_of, eval_gate. cbn [q1 q2 q3 q4 qm1 qm2 qecc qh1 qh2 qh3 qh4 qc qo]. rewrite !Q_on by (try exact Hi; lia). unfold selector_cols. cbn [nth].
  assert (X : forall f : gate F -> F, nth i (map f gs) 0 = f (nth i gs g0)) by (intros f; rewrite (nth_indep _ 0 (f g0)) by (rewrite map_length; exact Hi); apply map_nth).
  rewrite !X. apply (proj2 (fsub_0 F _ _)). exact E.
Qed.
Lemma bools_on i j : (i < n)%nat -> (1 <= j <= 3)%nat -> num_bool Ws qbp (fpow om i) j = 0.
Proof.
  intros Hi Hj. destruct (row_sat i Hi) as [_ E]. destruct (row_w i Hi) as [A0 [A1 [A2 [A3 A4]]]]. unfold num_bool. rewrite (qb_on i Hi). destruct (g_bool (nth i gs g0)) eqn:B; [|ring].
  destruct (E B) as [B1 [B2 B3]]. unfold boolean in *.
  assert (j = 1 \/ j = 2 \/ j = 3)%nat as [->|[->| ->]] by lia; [rewrite A1; destruct B1 as [-> | ->]|rewrite A2; destruct B2 as [-> | ->]|rewrite A3; destruct B3 as [-> | ->]]; ring.
Qed.

Hypothesis (Hden : forall r, (r < n - 1)%nat -> zD n om ks ext perm ch_b ch_g r <> 0).
Lemma perm_lt p : (p < 5 * n)%nat -> (nth p perm 0 < 5 * n)%nat.
Proof. destruct (C36_bijection _ _ _ Hperm) as [_ [Bj _]]. rewrite wires_len in Bj. apply Bj. Qed.
Lemma perm_permutes : Permutation (map (fun p => nth p perm 0%nat) (seq 0 (5 * n))) (seq 0 (5 * n)).
Proof.
  destruct (C36_bijection _ _ _ Hperm) as [_ [Bj [Inj _]]]. rewrite wires_len in *. apply NoDup_Permutation_bis.
  - assert (X : forall l, NoDup l -> (forall p, In p l -> (p < 5 * n)%nat) -> NoDup (map (fun p => nth p perm 0%nat) l)).
    { induction l as [|p l IH]; intros Nd Hl; [constructor|]. inversion Nd as [|? ? Np Nd']; subst. cbn [map]. constructor; [|apply IH; [exact Nd'|intros; apply Hl; now right]].
      intros I. apply in_map_iff in I. destruct I as [q [E Hq]]. apply Inj in E; [subst; contradiction|apply Hl; now right|apply Hl; now left]. }
    apply X; [apply seq_NoDup|]. intros p Hp. apply in_seq in Hp. lia.
  - rewrite map_length. lia.
  - intros q Hq. apply in_map_iff in Hq. destruct Hq as [p [<- Hp]]. apply in_seq in Hp. apply in_seq. pose proof (Bj p ltac:(lia)). lia.
Qed.
Lemma ext_copy p : (p < 5 * n)%nat -> nth (nth p perm 0%nat) ext 0 = nth p ext 0.
Proof.
  intros Hp. revert p Hp. rewrite <- wires_len. apply (C36_copy_constraints nv (wires gs) perm (fun i => nth i ext 0) Hperm).
  assert (X : forall i, (i < length (wires gs))%nat -> nth i ext 0 = wf (nth i (wires gs) 0%nat)).
  { intros i Hi. unfold ext. rewrite (nth_indep _ 0 (wf 0%nat)) by (rewrite map_length; assumption). apply (map_nth wf). }
  intros i j Hi Hj E. cbv beta. rewrite (X i Hi), (X j Hj), E. reflexivity.
Qed.
Lemma zevals_len : length zevals = n. Proof. unfold zevals. now rewrite map_length, seq_length. Qed.
Lemma ztrim_len : (length (from_coefs zevals) <= n)%nat. Proof. rewrite <- zevals_len. apply trim_len. Qed.
Lemma zp_ok : hide_polynomial zblinds (interp (from_coefs zevals)) n = Ok zp /\ zp <> [] /\ (length zp <= n + 3)%nat /\
  forall i, (i < n)%nat -> hv zp (fpow om i) = zval n om ks ext perm ch_b ch_g i.
Proof.
  pose proof ztrim_len as L. destruct (interp_ok (from_coefs zevals) L) as [E [A [B C]]]. destruct (hid_ok zblinds _ (normal_nonempty _ A)) as [Eh [Nh [Lh Vh]]].
  split; [exact Eh|]. split; [exact Nh|]. split; [cbn [length zblinds] in Lh; unfold zp; lia|]. intros i Hi. unfold zp. rewrite Vh, (fpow_root n om i Pom), C by exact Hi.
  unfold from_coefs. rewrite (trim_same zevals i). unfold coef, zevals. rewrite map_nth_vals by exact Hi. ring.
Qed.
Lemma zcommit_ok : match usable lag0 n with
  | Some l => let! c0 := commit l (from_coefs zevals) in apply_blind_factors K c0 zblinds n
  | None => commit K zp end = Ok (com zp).
Proof.
  pose proof ztrim_len as L. destruct (interp_ok (from_coefs zevals) L) as [E [A [B C]]]. destruct (hid_ok zblinds _ (normal_nonempty _ A)) as [Eh [Nh [Lh Vh]]]. fold zp in Vh. destruct zp_ok as [_ [_ [Lz _]]].
  unfold lagrange_ready in Hlag. destruct (usable lag0 n) as [l|]; [|apply commit_ok; exact Lz].
  rewrite (Hlag zevals (interp (from_coefs zevals)) zevals_len B). 2: { intros i Hi. rewrite <- hv_value, C by exact Hi. apply trim_same. }
  cbn [bind]. unfold apply_blind_factors. rewrite apply_blinds_ok by (cbn [length zblinds]; lia). f_equal. unfold KzgSpec.com. rewrite <- !hv_value, Vh. cbn [fpow]. module_eq.
Qed.
Lemma perm_on i : (i < n)%nat ->
  hv zp (fpow om i) * five (id_factor Ws ks ch_b ch_g (fpow om i)) = hv zp (fpow om (i + 1)) * five (perm_factor Ws sp ch_b ch_g (fpow om i)).
Proof.
  intros Hi. destruct zp_ok as [_ [_ [_ V]]]. rewrite (V i Hi).
  replace (five (id_factor Ws ks ch_b ch_g (fpow om i))) with (zN n om ks ext ch_b ch_g i) by (unfold zN, five, id_factor; rewrite !W_on by lia; reflexivity).
  replace (five (perm_factor Ws sp ch_b ch_g (fpow om i))) with (zD n om ks ext perm ch_b ch_g i) by (unfold zD, five, perm_factor; rewrite !W_on, !S_on by lia; reflexivity).
  rewrite (zval_step n om ks ext perm ch_b ch_g Pn Lk ext_len perm_permutes ext_copy i Hi Hden). f_equal. destruct (Nat.eqb_spec (i + 1) n) as [E|E].
  - rewrite E, (proj1 Pom). change (1 : F) with (fpow om 0) at 2. rewrite V by lia. reflexivity.
  - rewrite V by lia. reflexivity.
Qed.
Lemma start_on i : (i < n)%nat -> num_start l1p zp (fpow om i) = 0.
Proof.
  intros Hi. unfold num_start. destruct zp_ok as [_ [_ [_ V]]]. rewrite (V i Hi). destruct i as [|i].
  - change (zval n om ks ext perm ch_b ch_g 0) with (1 : F). ring.
  - pose proof (l1_value (fpow om (S i))) as E. rewrite (fpow_root n om _ Pom) in E.
    assert (X : hv l1p (fpow om (S i)) = 0).
    { apply (fmul_cancel F (fpow om (S i) - 1)); [|rewrite E; ring]. intros Y. apply (proj1 (fsub_0 F _ _)) in Y. apply (proj2 Pom (S i)); [lia|exact Y]. }
    rewrite X. ring.
Qed.
Lemma cols_len : (forall p, In p sp -> p <> [] /\ (length p <= n)%nat) /\ (forall p, In p qp -> p <> [] /\ (length p <= n)%nat) /\ (qbp <> [] /\ length qbp <= n)%nat /\ (l1p <> [] /\ length l1p <= n)%nat /\ (pip <> [] /\ length pip <= n)%nat.
Proof.
  split; [intros p; apply interp_in, scols_len|]. split; [intros p; apply interp_in, selector_len|].
  assert (X : forall ev, (length ev <= n)%nat -> interp ev <> [] /\ (length (interp ev) <= n)%nat) by (intros ev L; destruct (interp_ok ev L) as [_ [A [B _]]]; split; [now apply normal_nonempty|exact B]).
  pose proof Pn. repeat split; apply X; unfold bool_col, pis; rewrite ?map_length, ?seq_length; cbn [length]; lia.
Qed.
Lemma quotient_exists : exists T, normal T /\ (length T <= 5 * n + 8)%nat /\
  forall x, num Ws sp qp qbp l1p zp pip ks om ch_b ch_g ch_a x = (fpow x n - 1) * hv T x.
Proof.
  destruct cols_len as [A [B [C [D E]]]]. destruct zp_ok as [_ [_ [Lz _]]].
  apply quotient; try apply C; try apply D; try apply E; auto using Pn, Pom, gates_on, perm_on, start_on, bools_on.
  - intros p Hp. now apply W_len.
  - intros p Hp. now apply A.
  - intros p Hp. now apply B.
Qed.

(** ** The quotient polynomial *)
Lemma cev_at p i : (i < m)%nat -> nth i (cev p) 0 = hv p (k1 * fpow wm i).
Proof. intros H. unfold cev. now rewrite (map_nth_vals (fun i => hv p (k1 * fpow wm i))). Qed.
Lemma t_point_ok i : (i < m)%nat -> let x := k1 * fpow wm i in
  t_point pk0 (map cev Ws) (cev pip) (cev zp) ch_b ch_g ch_a (m / n) m i = Ok (num Ws sp qp qbp l1p zp pip ks om ch_b ch_g ch_a x * finv (fpow x n - 1)).
Proof.
  intros Hi x. assert (Lq : length qp = 13%nat) by reflexivity. assert (Ls : length sp = 5%nat) by reflexivity. assert (Lw : length Ws = 5%nat) by reflexivity.
  assert (Xq : nth i (coset_quotient pk0) 0 = x).
  { cbn [coset_quotient pk0]. rewrite (nth_indep _ 0 (k1 * 0)) by (rewrite map_length, powers_len; exact Hi). rewrite (map_nth (fun y => k1 * y)), powers_nth by exact Hi. reflexivity. }
  assert (Xz : nth i (z_h_inv_coset pk0) 0 = finv (fpow x n - 1)) by (cbn [z_h_inv_coset pk0]; now rewrite (map_nth_vals (fun i => finv (fpow (k1 * fpow wm i) n - 1)))).
  assert (Xs : nth ((i + m / n) mod m) (cev zp) 0 = hv zp (om * x)).
  { pose proof m_big. rewrite cev_at by (apply Nat.mod_upper_bound; lia). f_equal. unfold x.
    transitivity (k1 * fpow wm (i + m / n)); [|rewrite fpow_add; unfold om; ring]. f_equal.
    rewrite (Nat.div_mod (i + m / n) m) at 2 by lia. rewrite (fpow_add F wm), (fpow_mul F wm m), (proj1 Pm), fpow_1_l. ring. }
  unfold t_point. cbv zeta. cbn [q_coset s_coset l1_coset qb_coset pk_vk vk_k vk0 pk0]. rewrite Xq, Xz, Xs, !map_map.
  rewrite (map_ext_in (fun p => nth i (cev p) 0) (fun p => hv p x) Ws) by (intros p _; now apply cev_at).
  rewrite (map_ext_in (fun p => nth i (cev p) 0) (fun p => hv p x) qp) by (intros p _; now apply cev_at). rewrite !(cev_at _ i Hi). fold x.
  unfold num, num_gate, num_perm, num_start, num_bool, five, id_factor, perm_factor.
  revert Lw Ls Lq. generalize Ws sp qp. intros W Sl Q Lw Ls Lq.
  destruct W as [|W0 [|W1 [|W2 [|W3 [|W4 [|]]]]]]; try discriminate Lw. destruct Sl as [|S0 [|S1 [|S2 [|S3 [|S4 [|]]]]]]; try discriminate Ls.
  do 13 (destruct Q as [|? Q]; [discriminate Lq|]). destruct Q; [|discriminate Lq].
  unfold wv, sv, qv, gate_of. cbn [map eval_gate_func bind seq fold_left combine nth fst snd]. rewrite !(cev_at _ i Hi). fold x. f_equal.
  match goal with |- context [eval_gate F ?g ?a ?b ?c ?d ?o ?p] => generalize (eval_gate F g a b c d o p) end. intros v. generalize (finv (fpow x n - 1)). intros iv. ring.
Qed.

Lemma t_poly_ok T : normal T -> (length T <= 5 * n + 8)%nat -> (forall x, num Ws sp qp qbp l1p zp pip ks om ch_b ch_g ch_a x = (fpow x n - 1) * hv T x) ->
  t_poly pk0 n Ws zp ch_b ch_g ch_a pip = Ok T.
Proof.
  intros NT LT E. pose proof m_big. destruct factor_pos as [_ Em]. destruct zp_ok as [_ [Nz [Lz _]]]. destruct cols_len as [_ [_ [_ [_ [Ni Li]]]]].
  unfold t_poly. rewrite Em, Nat.eqb_refl. cbn [negb pk_vk vk_k vk0 pk0 root_m]. rewrite (idx_nth ks 1 0) by lia. cbn [bind].
  rewrite (mapM_pure _ cev) by (intros p Hp; apply W_len in Hp; apply cev_ok; [apply Hp|lia]). cbn [bind].
  rewrite (cev_ok pip) by (auto; lia). cbn [bind]. rewrite (cev_ok zp) by (auto; lia). cbn [bind]. fold vk0. fold pk0.
  rewrite (mapM_pure _ (fun i => hv T (k1 * fpow wm i))).
  2: { intros i Hi. apply in_seq in Hi. rewrite t_point_ok by lia. f_equal. rewrite E. field. apply coset_outside. }
  cbn [bind]. destruct (feqb_spec k1 0) as [X|_]; [contradiction|]. apply (coset_ffti_ok m wm k1); auto. lia.
Qed.

Hypothesis (Hch : forall t, fpow (cdraw n t) n <> 1).
Lemma eval_hv_map (l : list poly) x : map (fun p => eval p x) l = map (fun p => hv p x) l.
Proof. apply map_ext. intros p. apply eval_hv. Qed.
Lemma pow_small (x : F) k : (k <= n + 2)%nat -> pow_limbs x [N.of_nat k] = fpow x k.
Proof. intros H. pose proof m_big. pose proof Pn. replace k with (Datatypes.S k - 1)%nat by lia. apply root_inv_ok. lia. Qed.
Lemma outside x : fpow x n <> 1 -> (forall i, (i < n)%nat -> x - fpow om i <> 0) /\ x - 1 <> 0.
Proof.
  intros H. assert (A : forall i, x - fpow om i <> 0) by (intros i X; apply (proj1 (fsub_0 F _ _)) in X; apply H; rewrite X; apply fpow_root, Pom).
  split; [auto|]. exact (A 0%nat).
Qed.
Lemma first_lagrange_ok x : fpow x n <> 1 -> first_lagrange n x = Ok (fpow x n - 1, hv l1p x).
Proof.
  intros H. destruct (outside x H) as [_ X]. unfold first_lagrange. rewrite pow_small by lia. destruct (feqb_spec (x - 1) 0) as [Y|_]; [contradiction|]. do 2 f_equal.
  rewrite <- (l1_value x). field. exact X.
Qed.
Lemma eval_pi_ok x : fpow x n <> 1 -> eval_pi_poly vk0 online (fpow x n - 1) x = Ok (hv pip x).
Proof.
  intros H. destruct (outside x H) as [X _]. unfold eval_pi_poly. cbn [vk_root pub_idx lag_consts vk0]. unfold online, pub_variables, pub_constraints. rewrite !map_map.
  pose proof (eval_pi_loop_ok n om Pn wf x Bn X (pub_from 0 gs) 0) as E. cbv beta in E. rewrite E. 2: { intros iv Hiv. apply (pub_from_lt n Pn) in Hiv. lia. }
  cbn [bind]. f_equal. destruct cols_len as [_ [_ [_ [_ [_ Lp]]]]]. rewrite (lagrange_eval n om Pn Pom pip (fun i => row_pi wf (nth i gs g0)) x Lp pip_on X).
  pose proof (pub_sum n Pn wf (fun i => lc n om i * finv (x - fpow om i)) gs 0) as Y. cbv beta in Y. rewrite Y.
  rewrite (fsum_ext _ (fun i => row_pi wf (nth (i - 0) gs g0) * (lc n om i * finv (x - fpow om i))) (fun i => row_pi wf (nth i gs g0) * (lc n om i * finv (x - fpow om i)))) by (intros i _; now rewrite Nat.sub_0_r).
  ring.
Qed.

Theorem prover_ok : exists pf, prover draw cdraw rnd t0 K lag0 gs nv pk0 w = Ok pf /\ verifier e draw cdraw t0 K n vk0 online pf = Ok tt.
Proof.
  destruct quotient_exists as [T [NT [LT VT]]]. pose proof Pn as Pos. destruct zp_ok as [Ez [Nz [Lz Vz]]]. destruct cols_len as [Cs [Cq [[Nb Lb] [_ [Ni Li]]]]].
  set (rands := [rnd 13; rnd 14; rnd 15; rnd 16; rnd 17]%nat).
  set (ts := split_t T (n + 2) rands 0). destruct (split_t_len (F := F) (n + 2) ltac:(lia) rands T 0) as [Lts Lt]. fold ts in Lts, Lt. change (length rands) with 5%nat in *.
  set (tr4 := (tr3 ++ map TComm (map com ts)) ++ [TDrawn 3]). set (x := cdraw n tr4).
  assert (Hx : fpow x n <> 1) by apply Hch.
  set (we := map (fun p => hv p x) Ws). set (se := map (fun p => hv p x) (firstn 4 sp)). set (zw := hv zp (om * x)).
  set (tr5 := (tr4 ++ map TElem we ++ map TElem se ++ [TElem zw]) ++ [TDrawn 4]). set (u0 := cdraw n tr5).
  set (ch := mkCh ch_b ch_g ch_a x u0).
  assert (Lw5 : length Ws = 5%nat) by reflexivity. assert (Ls5 : length sp = 5%nat) by reflexivity. assert (Lq13 : length qp = 13%nat) by reflexivity.
  (* linearisation *)
  pose proof (linearise Ws sp qp ts qbp l1p zp pip ks om (fpow x n - 1) ch (n + 2) Lw5 Ls5 Lq13 Lk Lts (pow_small x (n + 2) ltac:(lia))) as Lin.
  cbn [zeta beta gamma alpha ch] in Lin. specialize (Lin ltac:(rewrite VT; unfold ts; rewrite split_t_ok by (try discriminate; lia); ring)). cbv zeta in Lin. fold we se zw in Lin.
  assert (Em : eval_selector_multipliers we = Ok (selector_multipliers F (wv Ws x 0) (wv Ws x 1) (wv Ws x 2) (wv Ws x 3) (wv Ws x 4))) by reflexivity.
  set (mult := selector_multipliers F (wv Ws x 0) (wv Ws x 1) (wv Ws x 2) (wv Ws x 3) (wv Ws x 4)) in *.
  pose proof (r_combine_hv x mult qp qbp ks (nth 4 sp []) zp we se zw ch ts (hv l1p x) (fpow x n - 1) (n + 2)) as Rh. cbv beta in Rh. rewrite Lin in Rh.
  pose proof (r_combine_com base1 s mult qp qbp ks (nth 4 sp []) zp we se zw ch ts (hv l1p x) (fpow x n - 1) (n + 2)) as Rc.
  destruct (r_combine PolyModel.add PolyModel.sub mul_scalar mult qp qbp ks (nth 4 sp []) zp we se zw ch ts (hv l1p x) (fpow x n - 1) (n + 2)) as [r| |] eqn:Er; cbn [rres] in Rh; try contradiction.
  assert (Lr : (length r <= n + 3)%nat).
  { eapply r_combine_len; [..|exact Er]; try lia.
    - intros q Hq. apply Cq in Hq. lia.
    - destruct (nth_in_or_default 4 sp []) as [I|I]; [apply Cs in I; lia|rewrite I; cbn [length]; lia].
    - intros q Hq. apply Lt in Hq. lia. }
  set (ps := Ws ++ firstn 4 sp ++ [r]).
  assert (Lps : forall p, In p ps -> (length p <= Datatypes.S N)%nat).
  { unfold ps. intros p Hp. rewrite !in_app_iff in Hp. destruct Hp as [Hp|[Hp|[<-|[]]]]; [apply W_len in Hp; lia| |lia]. assert (Hs : In p sp) by (rewrite <- (firstn_skipn 4 sp); apply in_app_iff; now left). apply Cs in Hs. lia. }
  destruct (two_openings e base1 base2 pairing draw N s tr5 ps zp x (om * x) (n + 2) [] u0) as [q [q2 [t' [Ob [Op Ov]]]]].
  { unfold ps. destruct Ws; discriminate. } { exact Lps. } { lia. } { unfold degree. lia. }
  exists (mkPf (map com Ws) (map com ts) (com zp) we zw se (com q) (com q2)). split.
  - unfold prover. rewrite online_ok. cbn [bind]. rewrite ext_ok. cbn [bind pk_vk pk0 pub_idx vk0 pk_group vk_root cs_size vk_k]. rewrite powers_len, pis_ok. cbn [bind].
    destruct (interp_ok pis ltac:(unfold pis; rewrite map_length, seq_length; lia)) as [Ep _]. rewrite Ep. cbn [bind]. fold pip. cbv zeta. pose proof wcs_ok as Ew. cbv zeta in Ew. rewrite Ew. cbn [bind].
    replace (map fst (map (fun i => (Wp i, com (Wp i))) (seq 0 5))) with Ws by (rewrite map_map; reflexivity).
    replace (map snd (map (fun i => (Wp i, com (Wp i))) (seq 0 5))) with (map com Ws) by (unfold Ws; rewrite !map_map; reflexivity).
    fold vk0. fold pk0. unfold get. cbv beta iota. fold tr1. fold tr2. fold ch_b. fold ch_g. rewrite Hperm. cbn [bind].
    rewrite (z_poly_ok n om ks ext perm ch_b ch_g Pn Lk K0 ext_len perm_lt Hden). cbn [bind]. fold zevals.
    destruct (interp_ok (from_coefs zevals) ztrim_len) as [Ei _]. rewrite Ei. cbn [bind]. fold zblinds. rewrite Ez. cbn [bind].
    rewrite zcommit_ok. cbn [bind]. fold tr3. fold ch_a. rewrite (t_poly_ok T NT LT VT). cbn [bind]. fold rands. fold ts.
    rewrite (mapM_pure (commit K) com ts) by (intros p Hp; apply Lt in Hp; apply commit_ok; lia). cbn [bind]. fold tr4. fold x.
    rewrite !eval_hv_map. rewrite eval_hv. fold we. cbn [s_polys pk0]. fold se. fold zw. fold tr5. fold u0. rewrite (first_lagrange_ok x Hx). cbn [bind fst snd].
    unfold r_poly. rewrite Em. cbn [unwrap bind s_polys q_polys qb_poly pk_vk vk_k vk0 pk0]. rewrite (idx_nth sp 4 []) by (rewrite Ls5; lia). cbn [bind]. fold ch. rewrite Er. cbn [bind].
    fold ps. rewrite Ob. cbn [bind fst]. rewrite Op. reflexivity.
  - unfold verifier. set (pf := mkPf _ _ _ _ _ _ _ _).
    replace (compute_challenges cdraw (tr_init t0 vk0 online) n pf) with (ch, tr5) by reflexivity. cbv beta iota. change (cs_size vk0) with n. change (zeta ch) with x. 
    rewrite (first_lagrange_ok x Hx). cbn [bind fst snd]. rewrite (eval_pi_ok x Hx). cbn [bind].
    assert (Rz : r_eval_zeta ch pf (hv pip x) (hv l1p x) = Ok (hv r x)).
    { rewrite Rh. unfold r_eval_zeta. cbn [ev_w ev_s ev_zw pf alpha ch]. unfold we, se. revert Lw5 Ls5. generalize Ws sp. intros W Sl L5 L6.
      destruct W as [|W0 [|W1 [|W2 [|W3 [|W4 [|]]]]]]; try discriminate L5. destruct Sl as [|S0 [|S1 [|S2 [|S3 [|S4 [|]]]]]]; try discriminate L6.
      cbn [map firstn s_factors bind length Nat.sub idx nth_error beta gamma alpha ch]. unfold wv, sv. cbn [nth]. f_equal. ring. }
    rewrite Rz. cbn [bind]. unfold r_commitment. cbn [pf_z pf_t pf_w ev_w ev_s ev_zw open_z open_zw pf]. rewrite Em. cbn [unwrap bind cm_s cm_q cm_qb vk_k vk_root vk0].
    rewrite (idx_nth (map com sp) 4 (com [])) by (rewrite map_length, Ls5; lia). cbn [bind]. rewrite map_nth.
    match type of Rc with rres _ _ ?y => destruct y as [c| |] eqn:Ec; cbn [rres] in Rc; try contradiction end. cbn [bind]. subst c.
    replace (map com Ws ++ firstn 4 (map com sp) ++ [com r]) with (map com ps) by (unfold ps; rewrite !map_app, firstn_map; reflexivity).
    replace (we ++ se ++ [hv r x]) with (map (fun p => hv p x) ps ++ []) by (unfold ps; rewrite app_nil_r, !map_app; reflexivity).
    destruct (batch draw tr5 (map com ps) (n + 2) x (map (fun p => hv p x) ps ++ [])) as [[c v] t'']. replace (x * om) with (om * x) by ring. exact Ov.
Qed.
Lemma prover_panics : (exists r, (r < n - 1)%nat /\ zD n om ks ext perm ch_b ch_g r = 0) -> prover draw cdraw rnd t0 K lag0 gs nv pk0 w = Panic.
Proof.
  intros Hz. unfold prover. rewrite online_ok. cbn [bind]. rewrite ext_ok. cbn [bind pk_vk pk0 pub_idx vk0 pk_group vk_root cs_size vk_k]. rewrite powers_len, pis_ok. cbn [bind].
  destruct (interp_ok pis ltac:(unfold pis; rewrite map_length, seq_length; lia)) as [Ep _]. rewrite Ep. cbn [bind]. fold pip. cbv zeta. pose proof wcs_ok as Ew. cbv zeta in Ew. rewrite Ew. cbn [bind].
  replace (map fst (map (fun i => (Wp i, com (Wp i))) (seq 0 5))) with Ws by (rewrite map_map; reflexivity).
  replace (map snd (map (fun i => (Wp i, com (Wp i))) (seq 0 5))) with (map com Ws) by (unfold Ws; rewrite !map_map; reflexivity).
  fold vk0. fold pk0. unfold get. cbv beta iota. fold tr1. fold tr2. fold ch_b. fold ch_g. rewrite Hperm. cbn [bind].
  rewrite (z_poly_panics n om ks ext perm ch_b ch_g Pn Lk K0 ext_len perm_lt Hz). reflexivity.
Qed.
End Complete.
