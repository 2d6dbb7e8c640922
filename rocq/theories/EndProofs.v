(** The run of a satisfied circuit through the proof system, with parameters made from
    the files. *)
From Coq Require Import List Arith NArith ZArith Lia Bool Field Ring.
From Verif Require Import Base Field PField Power TurboModel TurboSpec TurboLemmas TurboEmit PermModel PermProps PolyModel PolySpec PolyProofs PolyLemmas PolyFft PolyProps
  KzgModel KzgSpec KzgProofs KzgProps PlonkModel PlonkSpec PlonkPoly PlonkProofs PlonkCore PlonkHonest PlonkComplete PlonkSound PlonkAttack PlonkExact PlonkProps ParamsModel ParamsProofs ParamsProps.
Import ListNotations.
Local Open Scope F_scope.

Section Run.
Context {F : PField}.
Lemma pub_list (w : nat -> F) : forall gs i, map w (map snd (pub_from i gs)) = flat_map (pub_of w) gs.
Proof.
  induction gs as [|g gs IH]; intros i; cbn [pub_from flat_map]; [reflexivity|]. unfold pub_of at 1. destruct (g_pub g); cbn [map snd app]; now rewrite IH.
Qed.
Lemma pad_gates (c : tcs F) : gates (TurboModel.pad F c) = gates c ++ repeat (pad_row F) (next_power_of_two (size c) - size c).
Proof.
  unfold gates, TurboModel.pad. cbn [grev]. rewrite rev_app_distr. f_equal. generalize (next_power_of_two (size c) - size c)%nat. intros n.
  induction n as [|n IH]; [reflexivity|]. cbn [repeat rev]. rewrite IH. clear. induction n as [|n IH]; [reflexivity|]. cbn [repeat app]. now rewrite IH.
Qed.
Lemma silent_pad (w : nat -> F) n : flat_map (pub_of w) (repeat (pad_row F) n) = [].
Proof. induction n as [|n IH]; [reflexivity|]. cbn [repeat flat_map]. now rewrite IH. Qed.
(** A padded satisfied system meets what the proof system needs. *)
Lemma padded_ok (c : tcs F) : Inv c -> let p := TurboModel.pad F c in
  (forall g, In g (gates p) -> wire_lt (nvars p) g) /\ length (wit p) = nvars p /\
  (forall g, In g (gates p) -> gate_eq (fun v => nth v (wit p) 0) g /\ gate_bool (fun v => nth v (wit p) 0) g) /\
  map (fun v => nth v (wit p) 0) (pub_variables (gates p)) = pub_values (val c) c /\ length (gates p) = (2 ^ Nat.log2_up (size c))%nat.
Proof.
  intros [L [N2 [_ [W S]]]] p. split; [|split; [|split; [|split]]].
  - intros g Hg. unfold p in Hg. rewrite pad_gates in Hg. apply in_app_iff in Hg. destruct Hg as [Hg|Hg].
    + rewrite Forall_forall in W. apply W. now apply in_rev.
    + apply repeat_spec in Hg. subst g. unfold p. cbn [nvars TurboModel.pad]. repeat split; cbn; lia.
  - exact L.
  - intros g Hg. apply (pad_sat F c) in S. unfold sat in S. rewrite Forall_forall in S. apply S. now apply in_rev.
  - unfold pub_variables. rewrite (pub_list (fun v => nth v (wit p) 0)). unfold p. rewrite pad_gates, flat_map_app, silent_pad, app_nil_r. reflexivity.
  - pose proof (pad_size F c) as Z. unfold gates. rewrite rev_length. exact Z.
Qed.

Context {G1 G2 GT : Mod F} (e : G1 -> G2 -> GT) (base1 : G1) (base2 : G2) (pairing : pairing_for e base2).
Context (gen : F) (order : N) (draw : list (tmsg G1) -> F) (cdraw : nat -> list (tmsg G1) -> F) (c1 : codec G1) (c2 : codec G2).
Lemma made srs bases ks gs nv k lag pk : kzg_from_bytes c1 c2 srs = Ok k -> load_lagrange (G2 := G2) c1 bases (length gs) = Ok lag -> indexer gen order gs nv k lag ks = Ok pk ->
  make gen order c1 c2 (Some srs) bases ks (gs, nv) = Ok (mkPs k lag (full gs nv) pk).
Proof. intros E1 E2 E3. unfold make. rewrite E1. cbn [bind fst]. rewrite E2. cbn [bind snd]. rewrite E3. reflexivity. Qed.
(** The challenges hit a denominator of the permutation product: the second one is minus a
    value of the witness minus the first one times the name of a position. *)
Definition unlucky (n nv : nat) (ks w : list F) : Prop :=
  exists om, primitive n om /\ exists t v p, (v < nv)%nat /\ (p < 5 * n)%nat /\ cdraw n (t ++ [TDrawn 2]) = fopp (nth v w 0 + cdraw n t * name_of n om ks p).
(** Parameters in Lagrange form for size [n] are absent, of another size or made for the same secret. *)
Definition lagrange_good (s : F) (bases : nat -> option (list N)) (n : nat) : Prop :=
  exists lag, load_lagrange (G2 := G2) c1 bases n = Ok lag /\ forall om, primitive n om -> lagrange_ready base1 s n om (usable lag n).
Lemma run_made (c cp : tcs F) (N : nat) s srs bases ks wm : let n := length (gates cp) in let m := quot_eval_dom_size n in
  supported n -> supported m -> (N.of_nat m < 2 ^ 32)%N -> nth_root_of_unity gen order m = Ok (Some wm) -> primitive m wm ->
  length ks = 5%nat -> nth 0 ks 0 = 1 -> nth 1 ks 0 <> 0 -> fpow (nth 1 ks 0) m <> 1 -> (n + 2 <= N)%nat -> (forall t, fpow (cdraw n t) n <> 1) ->
  kzg_from_bytes c1 c2 srs = Ok (setup base1 base2 N s) -> lagrange_good s bases n ->
  Inv c -> gates cp = gates (TurboModel.pad F c) -> nvars cp = nvars (TurboModel.pad F c) ->
  exists P, make gen order c1 c2 (Some srs) bases ks (gates cp, nvars cp) = Ok P /\ vs_pcs (to_verifier P) = setup base1 base2 N s /\
  forall rnd t0, (exists pf, prove_with draw cdraw P (full (gates (TurboModel.pad F c)) (nvars (TurboModel.pad F c))) rnd t0 (wit (TurboModel.pad F c)) = Ok pf /\
      verify_with e draw cdraw (to_verifier P) t0 (pub_values (val c) c) pf = Ok tt) \/
    (prove_with draw cdraw P (full (gates (TurboModel.pad F c)) (nvars (TurboModel.pad F c))) rnd t0 (wit (TurboModel.pad F c)) = Panic /\ unlucky n (nvars cp) ks (wit (TurboModel.pad F c))).
Proof.
  intros n m Sn Sm Bm Hr Pm Lk K0 K1 Ck HN Hc Es [lag [El Hl]] HI Eg Ev.
  destruct (padded_ok c HI) as [W [Lw [S [PV _]]]].
  assert (Pom : primitive n (fpow wm (m / n))) by (apply (PlonkComplete.Pom (gates cp) N ks wm Sn Bm Pm Lk HN)).
  pose proof (C22_honest e base1 base2 pairing draw cdraw gen order (gates cp) (nvars cp) N s lag ks wm (wit (TurboModel.pad F c))) as H.
  assert (IX : exists pk, indexer gen order (gates cp) (nvars cp) (setup base1 base2 N s) lag ks = Ok pk).
  { rewrite <- Eg, <- Ev in *. destruct (H (fun _ => 0) [] Sn Sm Bm Hr Pm Lk K0 K1 Ck HN (Hl _ Pom) W Lw S Hc) as [pk [E _]]. now exists pk. }
  destruct IX as [pk Ei]. exists (mkPs (setup base1 base2 N s) lag (full (gates cp) (nvars cp)) pk).
  split; [now apply made|]. split; [reflexivity|]. intros rnd t0. rewrite <- Eg, <- Ev in *.
  destruct (H rnd t0 Sn Sm Bm Hr Pm Lk K0 K1 Ck HN (Hl _ Pom) W Lw S Hc) as [pk' [E' R]]. rewrite Ei in E'. apply Ok_inj in E'. subst pk'. rewrite PV in R.
  destruct R as [R|[R U]]; [left; exact R|right; split; [exact R|]]. exists (fpow wm (m / n)). split; [exact Pom|exact U].
Qed.
End Run.
