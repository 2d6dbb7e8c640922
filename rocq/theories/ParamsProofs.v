(** Lemmas on stored parameters. *)
From Coq Require Import List Arith NArith ZArith Lia Bool Field Ring.
From Verif Require Import Base Field PField Power UtilsModel UtilsProps NoteProofs TurboModel PermModel PolyModel PolySpec PolyProofs PolyLemmas PolyFft PolyProps
  KzgModel KzgSpec KzgProofs KzgProps PlonkModel PlonkPoly PlonkProofs PlonkCore PlonkHonest PlonkComplete ParamsModel.
Import ListNotations.

Lemma mapM_ext {A B} (f g : A -> res B) l : (forall a, In a l -> f a = g a) -> Base.mapM f l = Base.mapM g l.
Proof.
  induction l as [|a l IH]; intros H; [reflexivity|]. cbn [Base.mapM]. rewrite (H a) by now left. destruct (g a); [|reflexivity..]. cbn [bind].
  rewrite IH by (intros b Hb; apply H; now right). reflexivity.
Qed.
Lemma mapM_leng {A B} (f : A -> res B) l r : Base.mapM f l = Ok r -> length r = length l.
Proof.
  revert r. induction l as [|a l IH]; intros r H; cbn [Base.mapM] in H; [injection H as <-; reflexivity|].
  destruct (f a) as [b| |]; try discriminate. cbn [bind] in H. destruct (Base.mapM f l) as [bs| |]; try discriminate. cbn [rmap] in H. injection H as <-. cbn [length]. now rewrite (IH bs).
Qed.
Lemma mapM_at {A B} (f : A -> res B) : forall l r i a, Base.mapM f l = Ok r -> nth_error l i = Some a -> exists b, nth_error r i = Some b /\ f a = Ok b.
Proof.
  induction l as [|x l IH]; intros r [|i] a H E; try discriminate; cbn [Base.mapM] in H; destruct (f x) as [b| |] eqn:Fx; try discriminate; cbn [bind] in H;
    destruct (Base.mapM f l) as [bs| |] eqn:M; try discriminate; cbn [rmap] in H; injection H as <-.
  - cbn in E. injection E as <-. exists b. split; [reflexivity|exact Fx].
  - cbn [nth_error] in *. exact (IH bs i a eq_refl E).
Qed.

Lemma bind_ext {A B} (x : res A) (f g : A -> res B) : (forall a, x = Ok a -> f a = g a) -> bind x f = bind x g.
Proof. intros H. destruct x as [a| |]; cbn [bind]; [now apply H|reflexivity..]. Qed.
Lemma bind_both {A B} (x y : res A) (f g : A -> res B) : x = y -> (forall a, y = Ok a -> f a = g a) -> bind x f = bind y g.
Proof. intros -> H. now apply bind_ext. Qed.
(** ** Bytes *)
Definition exact {A} (c : codec A) : Prop := forall a, length (enc c a) = esize c /\ dec c (enc c a) = Ok a.
Lemma le_bytes_len n : forall x, length (le_bytes n x) = n.
Proof. induction n as [|n IH]; intros x; cbn [le_bytes length]; [reflexivity|]. now rewrite IH. Qed.
Lemma u32_len n : length (u32_bytes n) = 4%nat. Proof. apply le_bytes_len. Qed.
Lemma u32_back n : (N.of_nat n < 2 ^ 32)%N -> u32_of (u32_bytes n) = n.
Proof.
  intros H. unfold u32_of, u32_bytes. rewrite N.mod_small by exact H. rewrite le_value_bytes; [apply Nat2N.id|]. exact H.
Qed.
Lemma enc_len {A} (c : codec A) : exact c -> forall l, length (flat_map (enc c) l) = (esize c * length l)%nat.
Proof. intros X. induction l as [|a l IH]; cbn [flat_map length]; [lia|]. rewrite app_length, IH, (proj1 (X a)). lia. Qed.
Lemma slice_mid (pre mid post : list N) lo hi : length pre = lo -> (lo + length mid = hi)%nat -> slice lo hi (pre ++ mid ++ post) = Ok mid.
Proof.
  intros <- <-. unfold slice. rewrite !app_length. destruct (Nat.leb_spec (length pre + length mid) (length pre + (length mid + length post))) as [_|X]; [|lia].
  rewrite skipn_app, skipn_all, Nat.sub_diag. cbn [skipn app]. replace (length pre + length mid - length pre)%nat with (length mid) by lia. now rewrite firstn_app, firstn_all, Nat.sub_diag, firstn_O, app_nil_r.
Qed.
Lemma read_back {A} (c : codec A) : exact c -> forall l k pre post, length pre = (esize c * k)%nat ->
  Base.mapM (fun i => bind (slice (esize c * i) (esize c * (i + 1)) (pre ++ flat_map (enc c) l ++ post)) (dec c)) (seq k (length l)) = Ok l.
Proof.
  intros X. induction l as [|a l IH]; intros k pre post L; cbn [flat_map length seq Base.mapM]; [reflexivity|].
  rewrite <- app_assoc. rewrite (slice_mid pre (enc c a)) by (rewrite ?(proj1 (X a)); lia). cbn [bind]. rewrite (proj2 (X a)). cbn [bind].
  replace (pre ++ enc c a ++ flat_map (enc c) l ++ post) with ((pre ++ enc c a) ++ flat_map (enc c) l ++ post) by now rewrite <- app_assoc.
  rewrite IH by (rewrite app_length, (proj1 (X a)), L; lia). reflexivity.
Qed.

Section Bytes.
Context {F : PField} {G1 G2 : Mod F} (c1 : codec G1) (c2 : codec G2).
Lemma round_trip (X1 : exact c1) (X2 : exact c2) (k : kzg G1 G2) junk :
  (N.of_nat (length (pp1 k)) < 2 ^ 32)%N -> (N.of_nat (length (pp2 k)) < 2 ^ 32)%N -> kzg_from_bytes c1 c2 (kzg_to_bytes c1 c2 k ++ junk) = Ok k.
Proof.
  intros H1 H2. unfold kzg_from_bytes, kzg_to_bytes. set (A := u32_bytes (length (pp1 k))). set (B := u32_bytes (length (pp2 k))).
  set (P := flat_map (enc c1) (pp1 k)). set (Q := flat_map (enc c2) (pp2 k)).
  assert (LA : length A = 4%nat) by apply u32_len. assert (LB : length B = 4%nat) by apply u32_len.
  assert (LP : length P = (esize c1 * length (pp1 k))%nat) by now apply enc_len.
  replace ((A ++ B ++ P ++ Q) ++ junk) with (A ++ B ++ P ++ Q ++ junk) by now rewrite !app_assoc.
  destruct (Nat.ltb_spec (length (A ++ B ++ P ++ Q ++ junk)) 8) as [Y|_]; [rewrite !app_length in Y; lia|].
  assert (EA : firstn 4 (A ++ B ++ P ++ Q ++ junk) = A) by (rewrite firstn_app, LA, Nat.sub_diag, firstn_O, app_nil_r; rewrite <- LA; apply firstn_all).
  assert (SA : skipn 4 (A ++ B ++ P ++ Q ++ junk) = B ++ P ++ Q ++ junk) by (rewrite skipn_app, LA, Nat.sub_diag; rewrite <- LA at 1; rewrite skipn_all; reflexivity).
  assert (EB : firstn 4 (B ++ P ++ Q ++ junk) = B) by (rewrite firstn_app, LB, Nat.sub_diag, firstn_O, app_nil_r; rewrite <- LB; apply firstn_all).
  assert (UA : u32_of A = length (pp1 k)) by now apply u32_back. assert (UB : u32_of B = length (pp2 k)) by now apply u32_back.
  rewrite EA, SA, EB, UA, UB. cbv zeta.
  assert (S8 : forall Z, skipn 8 (A ++ B ++ Z) = Z).
  { intros Z. replace (A ++ B ++ Z) with ((A ++ B) ++ Z) by now rewrite <- app_assoc. rewrite skipn_app, app_length, LA, LB. replace (skipn 8 (A ++ B)) with (@nil N); [reflexivity|]. symmetry. apply skipn_all2. rewrite app_length. lia. }
  destruct (Nat.ltb_spec (length (A ++ B ++ P ++ Q ++ junk)) (8 + esize c1 * length (pp1 k))) as [Y|_]; [rewrite !app_length in Y; lia|].
  assert (R1 : read_elems c1 (length (pp1 k)) (skipn 8 (A ++ B ++ P ++ Q ++ junk)) = Ok (pp1 k)).
  { rewrite S8. unfold read_elems, P. apply (read_back c1 X1 (pp1 k) 0 [] (Q ++ junk)). cbn. lia. }
  rewrite R1. cbn [bind].
  assert (R2 : read_elems c2 (length (pp2 k)) (skipn (8 + esize c1 * length (pp1 k)) (A ++ B ++ P ++ Q ++ junk)) = Ok (pp2 k)).
  { replace (A ++ B ++ P ++ Q ++ junk) with ((A ++ B ++ P) ++ Q ++ junk) by now rewrite <- !app_assoc.
    rewrite skipn_app, !app_length, LA, LB, LP. replace (skipn (8 + esize c1 * length (pp1 k)) (A ++ B ++ P)) with (@nil N) by (symmetry; apply skipn_all2; rewrite !app_length; lia).
    replace (8 + esize c1 * length (pp1 k) - (4 + (4 + esize c1 * length (pp1 k))))%nat with 0%nat by lia. cbn [skipn app].
    unfold read_elems, Q. apply (read_back c2 X2 (pp2 k) 0 [] junk). cbn. lia. }
  rewrite R2. cbn [bind]. destruct k; reflexivity.
Qed.
Lemma read_elems_inv {A} (c : codec A) len bs l : read_elems c len bs = Ok l -> length l = len /\ (len = 0 \/ esize c * len <= length bs)%nat /\
  forall i, (i < len)%nat -> exists a, nth_error l i = Some a /\ dec c (firstn (esize c) (skipn (esize c * i) bs)) = Ok a.
Proof.
  intros H. unfold read_elems in H. pose proof (mapM_leng _ _ _ H) as L. rewrite seq_length in L. split; [exact L|].
  assert (At : forall i, (i < len)%nat -> (esize c * (i + 1) <= length bs)%nat /\ exists a, nth_error l i = Some a /\ dec c (firstn (esize c) (skipn (esize c * i) bs)) = Ok a).
  { intros i Hi. destruct (mapM_at _ _ _ i i H) as [a [E D]].
    { rewrite nth_error_nth' with (d := 0%nat) by (rewrite seq_length; exact Hi). now rewrite seq_nth. }
    unfold slice in D. destruct (Nat.leb_spec (esize c * (i + 1)) (length bs)) as [Y|_]; [|discriminate]. cbn [bind] in D.
    split; [exact Y|]. exists a. split; [exact E|]. now replace (esize c * (i + 1) - esize c * i)%nat with (esize c) in D by nia. }
  split; [|intros i Hi; apply At, Hi].
  destruct len as [|len]; [now left|right]. destruct (At len ltac:(lia)) as [Y _]. now rewrite Nat.add_1_r in Y.
Qed.

Lemma lagrange_back (X1 : exact c1) (v : list G1) junk (bases : nat -> option (list N)) size : (N.of_nat (length v) < 2 ^ 32)%N ->
  bases size = Some (u32_bytes (length v) ++ flat_map (enc c1) v ++ junk) ->
  load_lagrange (G2 := G2) c1 bases size = Ok (Some {| pp1 := v; pp2 := [] |}).
Proof.
  intros H E. unfold load_lagrange. rewrite E. assert (E4 := slice_mid [] (u32_bytes (length v)) (flat_map (enc c1) v ++ junk) 0 4 eq_refl ltac:(now rewrite u32_len)). cbn [app] in E4. rewrite E4. cbn [bind]. rewrite u32_back by exact H.
  assert (R : forall l k pre, length pre = (4 + esize c1 * k)%nat -> read_lagrange c1 (seq k (length l)) (pre ++ flat_map (enc c1) l ++ junk) = Ok (Some l)).
  { induction l as [|a l IH]; intros k pre L; [reflexivity|]. cbn [length seq read_lagrange flat_map]. rewrite <- app_assoc.
    rewrite (slice_mid pre (enc c1 a)) by (rewrite ?(proj1 (X1 a)); lia). cbn [bind]. rewrite (proj2 (X1 a)).
    replace (pre ++ enc c1 a ++ flat_map (enc c1) l ++ junk) with ((pre ++ enc c1 a) ++ flat_map (enc c1) l ++ junk) by now rewrite <- app_assoc.
    rewrite IH by (rewrite app_length, (proj1 (X1 a)), L; lia). reflexivity. }
  rewrite R by (rewrite u32_len; lia). reflexivity.
Qed.
End Bytes.

(** ** Lagrange parameters do not change the prover *)
Section Lag.
Context {F : PField} {G1 G2 : Mod F} (base1 : G1) (base2 : G2) (draw : list (tmsg G1) -> F) (cdraw : nat -> list (tmsg G1) -> F).
Context (gs : list (gate F)) (nv N : nat) (s : F) (lag0 : option (kzg G1 G2)) (ks : list F) (wm : F).
Notation n := (length gs).
Notation m := (quot_eval_dom_size (length gs)).
Notation om := (fpow wm (m / n)).
Notation K := (setup base1 base2 N s).
Local Open Scope F_scope.
Add Field Flg : (f_th F).
Hypothesis (Sn : supported n) (Bm : (N.of_nat m < 2 ^ 32)%N) (Pm : primitive m wm).
Hypothesis (Lk : length ks = 5%nat) (HN : (n + 2 <= N)%nat) (Hlag : lagrange_ready base1 s n om (usable lag0 n)).
Lemma commit_same ev bl p0 p : length ev = n -> (length bl <= 3)%nat -> ffti om ev n = Ok p0 -> hide_polynomial bl p0 n = Ok p ->
  match usable lag0 n with
  | Some l => let! c0 := commit l (from_coefs ev) in apply_blind_factors K c0 bl n
  | None => commit K p end = commit K p.
Proof.
  intros L Lb E Eh. destruct (interp_ok gs N ks wm Sn Bm Pm Lk HN ev ltac:(lia)) as [E' [A [B C]]]. rewrite E in E'. apply Ok_inj in E'. subst p0.
  destruct (hid_ok gs bl _ (normal_nonempty _ A)) as [Eh' [Nh [Lh Vh]]]. rewrite Eh in Eh'. apply Ok_inj in Eh'. subst p.
  rewrite (hidden_commit base1 base2 gs N s lag0 ks wm Sn Bm Pm Lk HN Hlag ev bl L Lb). symmetry. apply (commit_ok base1 base2 gs N s ks Bm Lk HN). lia.
Qed.
Lemma zcommit_same l bl p0 p : length l = n -> (length bl <= 3)%nat -> ffti om (from_coefs l) n = Ok p0 -> hide_polynomial bl p0 n = Ok p ->
  match usable lag0 n with
  | Some lg => let! c0 := commit lg (from_coefs l) in apply_blind_factors K c0 bl n
  | None => commit K p end = commit K p.
Proof.
  intros L Lb E Eh.
  assert (Lt : (length (from_coefs l) <= n)%nat) by (rewrite <- L; apply trim_len).
  destruct (interp_ok gs N ks wm Sn Bm Pm Lk HN (from_coefs l) Lt) as [E' [A [B C]]]. rewrite E in E'. apply Ok_inj in E'. subst p0.
  destruct (hid_ok gs bl _ (normal_nonempty _ A)) as [Eh' [Nh [Lh Vh]]]. rewrite Eh in Eh'. apply Ok_inj in Eh'. subst p.
  rewrite (commit_ok base1 base2 gs N s ks Bm Lk HN (hid gs bl (interp gs wm (from_coefs l)))) by lia.
  unfold lagrange_ready in Hlag. destruct (usable lag0 n) as [lg|]; [|reflexivity].
  rewrite (Hlag l (interp gs wm (from_coefs l)) L B). 2: { intros i Hi. rewrite <- hv_value, C by exact Hi. apply trim_same. }
  cbn [bind]. unfold apply_blind_factors. rewrite apply_blinds_ok by lia. f_equal. unfold KzgSpec.com. rewrite <- !hv_value, Vh. cbn [fpow]. module_eq.
Qed.
Lemma z_loop_len h (group kk w : list F) perm b g : forall rows prev l, z_loop h group kk w perm b g rows prev = Ok l -> length l = length rows.
Proof.
  induction rows as [|i rows IH]; intros prev l H; cbn [z_loop] in H; [apply Ok_inj in H; subst l; reflexivity|].
  destruct (feqb _ 0); [discriminate|]. match type of H with bind ?x _ = _ => destruct x as [l'| |] eqn:E; try discriminate end. cbn [bind] in H. apply Ok_inj in H. subst l. cbn [length]. f_equal. exact (IH _ _ E).
Qed.
Lemma prover_same (pk : pparams G1) rnd t0 w : vk_root (pk_vk pk) = om -> prover draw cdraw rnd t0 K lag0 gs nv pk w = prover draw cdraw rnd t0 K None gs nv pk w.
Proof.
  intros Er. pose proof (supported_pos n Sn) as Pn. unfold prover. cbv zeta. cbn [usable]. rewrite Er.
  apply bind_ext. intros onl _. apply bind_ext. intros ext Ex.
  assert (Le : length ext = (5 * n)%nat).
  { unfold extend_witness in Ex. apply mapM_leng in Ex. rewrite Ex. unfold wires. rewrite !app_length, !map_length. lia. }
  apply bind_ext. intros pis _. apply bind_ext. intros pi _.
  apply bind_both.
  { apply mapM_ext. intros i Hi. apply in_seq in Hi. apply bind_ext. intros p0 E0. apply bind_ext. intros p E1.
    rewrite (commit_same (firstn n (skipn (i * n) ext)) _ p0 p); [reflexivity| |cbn; lia|exact E0|exact E1].
    rewrite firstn_length, skipn_length, Le. nia. }
  intros wcs _.
  destruct (get cdraw n _ 1) as [b t2]. destruct (get cdraw n t2 2) as [g t3].
  apply bind_ext. intros perm _. apply bind_ext. intros ze Ez. apply bind_ext. intros z0 E0. apply bind_ext. intros z E1.
  apply bind_both; [|intros; reflexivity].
  unfold z_poly in Ez. rewrite Le in Ez. replace (5 * n / 5)%nat with n in Ez by (rewrite Nat.mul_comm; symmetry; apply Nat.div_mul; lia).
  destruct (Nat.eqb_spec n 0) as [|_]; [lia|]. apply bind_ok in Ez. destruct Ez as [l [EL Ez]]. apply Ok_inj in Ez. subst ze.
  apply z_loop_len in EL. rewrite seq_length in EL. apply (zcommit_same (1 :: l) _ z0 z); [cbn [length]; lia|cbn; lia|exact E0|exact E1].
Qed.
End Lag.
