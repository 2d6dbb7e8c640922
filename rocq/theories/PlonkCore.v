(** The polynomial identity behind PLONK: linearisation, quotient, grand product. *)
From Coq Require Import List Arith NArith ZArith Lia Bool Permutation Field Ring.
From Verif Require Import Base Field PField Power TurboModel PermModel PermProofs PolyModel PolySpec PolyProofs PolyLemmas PolyFft PolyProps KzgModel KzgSpec KzgProofs PlonkModel PlonkPoly PlonkProofs.
Import ListNotations.
Local Open Scope F_scope.

Section Sim.
Context {F : PField} {X Y : Type} (xadd xsub : X -> X -> X) (xmul : X -> F -> X) (yadd ysub : Y -> Y -> Y) (ymul : Y -> F -> Y).
Context (R : X -> Y -> Prop).
Hypothesis (Ra : forall a b a' b', R a a' -> R b b' -> R (xadd a b) (yadd a' b')).
Hypothesis (Rs : forall a b a' b', R a a' -> R b b' -> R (xsub a b) (ysub a' b')).
Hypothesis (Rm : forall a a' c, R a a' -> R (xmul a c) (ymul a' c)).
Definition rres {A B} (P : A -> B -> Prop) (x : res A) (y : res B) : Prop :=
  match x, y with Ok a, Ok b => P a b | Err, Err => True | Panic, Panic => True | _, _ => False end.
Lemma q_terms_sim : forall qs qs' ws l l', Forall2 R qs qs' -> R l l' -> rres R (q_terms xadd xmul ws qs l) (q_terms yadd ymul ws qs' l').
Proof.
  induction qs as [|q qs IH]; intros qs' ws l l' H Hl; inversion H; subst; cbn [q_terms]; [exact Hl|]. destruct ws as [|w ws]; [exact I|]. apply IH; auto.
Qed.
Lemma t_terms_sim factor : forall ts ts' ex l l', Forall2 R ts ts' -> R l l' -> R (t_terms xadd xmul factor ts ex l) (t_terms yadd ymul factor ts' ex l').
Proof. induction ts as [|t ts IH]; intros ts' ex l l' H Hl; inversion H; subst; cbn [t_terms]; [exact Hl|]. apply IH; auto. Qed.
Lemma r_combine_sim w qs qs' qb qb' ks sl sl' z z' ws ss zw (ch : chals) ts ts' l1 zh nt :
  Forall2 R qs qs' -> R qb qb' -> R sl sl' -> R z z' -> Forall2 R ts ts' ->
  rres R (r_combine xadd xsub xmul w qs qb ks sl z ws ss zw ch ts l1 zh nt) (r_combine yadd ysub ymul w qs' qb' ks sl' z' ws ss zw ch ts' l1 zh nt).
Proof.
  intros Hq Hb Hs Hz Ht. unfold r_combine. inversion Hq as [|q q' qt qt' Hq0 Hqt]; subst; [exact I|]. destruct w as [|w0 w]; [exact I|]. inversion Ht as [|t t' tt tt' Ht0 Htt]; subst; [exact I|].
  pose proof (q_terms_sim qt qt' w (xmul q w0) (ymul q' w0) Hqt (Rm _ _ _ Hq0)) as S1.
  destruct (q_terms xadd xmul w qt (xmul q w0)) as [l| |], (q_terms yadd ymul w qt' (ymul q' w0)) as [l'| |]; cbn [rres bind] in *; try exact I; try contradiction.
  destruct (k_factors ch ws ks (alpha ch)) as [zk| |]; cbn [bind]; try exact I.
  destruct (s_factors ch ws ss (alpha ch * (zw * beta ch))) as [sf| |]; cbn [bind]; try exact I.
  destruct (idx (w0 :: w) 1) as [a1| |]; cbn [bind]; try exact I. destruct (idx (w0 :: w) 2) as [a2| |]; cbn [bind]; try exact I. destruct (idx (w0 :: w) 3) as [a3| |]; cbn [bind]; try exact I.
  cbn [rres]. apply Rs; [apply Ra; [apply Rs; [apply Ra; [exact S1|now apply Rm]|now apply Rm]|now apply Rm]|]. apply t_terms_sim; auto.
Qed.
End Sim.

Section Linear.
Context {F : PField} {G1 : Mod F} (base1 : G1) (s : F).
Add Field Fpl : (f_th F).
(** [r_poly]'s combination evaluated at any point is the combination of the values, and the
    combination of the commitments is the commitment of the combination. *)
Lemma r_combine_hv y w (qs : list (list F)) qb ks sl z ws ss zw ch ts l1 zh nt :
  rres (fun (p : list F) v => hv p y = v) (r_combine PolyModel.add PolyModel.sub mul_scalar w qs qb ks sl z ws ss zw ch ts l1 zh nt)
    (r_combine fadd fsub fmul w (map (fun p => hv p y) qs) (hv qb y) ks (hv sl y) (hv z y) ws ss zw ch (map (fun p => hv p y) ts) l1 zh nt).
Proof.
  apply r_combine_sim; try reflexivity.
  - intros a b a' b' <- <-. apply hv_add.
  - intros a b a' b' <- <-. apply hv_sub.
  - intros a a' c <-. rewrite hv_scale. ring.
  - induction qs; constructor; auto.
  - induction ts; constructor; auto.
Qed.
Lemma r_combine_com w (qs : list (list F)) qb ks sl z ws ss zw ch ts l1 zh nt :
  rres (fun (p : list F) c => c = com base1 s p) (r_combine PolyModel.add PolyModel.sub mul_scalar w qs qb ks sl z ws ss zw ch ts l1 zh nt)
    (r_combine madd msub (fun c x => smul x c) w (map (com base1 s) qs) (com base1 s qb) ks (com base1 s sl) (com base1 s z) ws ss zw ch (map (com base1 s) ts) l1 zh nt).
Proof.
  unfold com. apply r_combine_sim; try reflexivity.
  - intros a b a' b' -> ->. rewrite <- !hv_value, hv_add. module_eq.
  - intros a b a' b' -> ->. rewrite <- !hv_value, hv_sub. module_eq.
  - intros a a' c ->. rewrite <- !hv_value, hv_scale. module_eq.
  - induction qs; constructor; auto.
  - induction ts; constructor; auto.
Qed.
(** Lengths. *)
Lemma r_combine_len d w (qs : list (list F)) qb ks sl z ws ss zw ch ts l1 zh nt r :
  (forall q, In q qs -> (length q <= d)%nat) -> (length qb <= d)%nat -> (length sl <= d)%nat -> (length z <= d)%nat -> (forall q, In q ts -> (length q <= d)%nat) ->
  r_combine PolyModel.add PolyModel.sub mul_scalar w qs qb ks sl z ws ss zw ch ts l1 zh nt = Ok r -> (length r <= d)%nat.
Proof.
  intros Hq Hb Hs Hz Ht E. set (R := fun (p : list F) (_ : unit) => (length p <= d)%nat).
  assert (A : forall a b (a' b' : unit), R a a' -> R b b' -> R (PolyModel.add a b) tt) by (unfold R; intros a b _ _ Ha Hb'; pose proof (add_len a b); lia).
  assert (B : forall a b (a' b' : unit), R a a' -> R b b' -> R (PolyModel.sub a b) tt) by (unfold R; intros a b _ _ Ha Hb'; pose proof (sub_len a b); lia).
  assert (C : forall a (a' : unit) c, R a a' -> R (mul_scalar a c) tt) by (unfold R; intros a _ c Ha; pose proof (scale_len a c); lia).
  assert (Fl : forall l : list (list F), (forall q, In q l -> (length q <= d)%nat) -> Forall2 R l (map (fun _ => tt) l)).
  { induction l as [|q l IH]; intros H; constructor; [apply H; now left|apply IH; intros; apply H; now right]. }
  pose proof (r_combine_sim PolyModel.add PolyModel.sub mul_scalar (fun _ _ => tt) (fun _ _ => tt) (fun _ _ => tt) R A B C w qs _ qb tt ks sl tt z tt ws ss zw ch ts _ l1 zh nt (Fl qs Hq) Hb Hs Hz (Fl ts Ht)) as Sim.
  rewrite E in Sim. match type of Sim with rres _ _ ?y => destruct y end; cbn [rres] in Sim; [exact Sim|contradiction..].
Qed.
End Linear.

(** ** The numerator of the quotient *)
Section Numerator.
Context {F : PField}.
Add Field Fpn : (f_th F).
Notation poly := (list F).
Context (W S Q : list poly) (qb l1 z pi : poly) (ks : list F) (om b g a : F) (n : nat).
Definition gate_of (q : nat -> F) : gate F :=
  (mkGate (q 0) (q 1) (q 2) (q 3) (q 4) (q 5) (q 6) (q 7) (q 8) (q 9) (q 10) (q 11) (q 12) 0 0 0 0 0 false None)%nat.
Definition wv (x : F) (j : nat) : F := hv (nth j W []) x.
Definition sv (x : F) (j : nat) : F := hv (nth j S []) x.
Definition qv (x : F) (j : nat) : F := hv (nth j Q []) x.
Definition num_gate (x : F) : F := eval_gate F (gate_of (qv x)) (wv x 0) (wv x 1) (wv x 2) (wv x 3) (wv x 4) (hv pi x).
Definition id_factor (x : F) (j : nat) : F := wv x j + g + b * (nth j ks 0 * x).
Definition perm_factor (x : F) (j : nat) : F := wv x j + g + b * sv x j.
Definition five (f : nat -> F) : F := f 0%nat * f 1%nat * f 2%nat * f 3%nat * f 4%nat.
Definition num_perm (x : F) : F := hv z x * five (id_factor x) - hv z (om * x) * five (perm_factor x).
Definition num_start (x : F) : F := hv l1 x * (hv z x - 1).
Definition num_bool (x : F) (j : nat) : F := hv qb x * (wv x j * (wv x j - 1)).
Definition num (x : F) : F :=
  num_gate x + a * num_perm x + a * a * num_start x + a * a * a * num_bool x 1 + a * a * a * a * num_bool x 2 + a * a * a * a * a * num_bool x 3.

Hypothesis LW : forall p, In p W -> (length p <= n + 2)%nat.
Hypothesis LS : forall p, In p S -> (length p <= n)%nat.
Hypothesis LQ : forall p, In p Q -> (length p <= n)%nat.
Hypothesis Lb : (length qb <= n)%nat.
Hypothesis L1 : (length l1 <= n)%nat.
Hypothesis Lpi : (length pi <= n)%nat.
Hypothesis Lz : (length z <= n + 3)%nat.
Lemma nth_len (l : list poly) d j : (forall p, In p l -> (length p <= d)%nat) -> (length (nth j l []) <= d)%nat.
Proof. intros H. destruct (nth_in_or_default j l []) as [I|E]; [now apply H|]. rewrite E. cbn. lia. Qed.
Lemma wv_deg j : pdeg (n + 1) (fun x => wv x j). Proof. apply pdeg_hv. pose proof (nth_len W (n + 2) j LW). lia. Qed.
Lemma sv_deg j : pdeg n (fun x => sv x j). Proof. apply pdeg_hv. pose proof (nth_len S n j LS). lia. Qed.
Lemma qv_deg j : pdeg n (fun x => qv x j). Proof. apply pdeg_hv. pose proof (nth_len Q n j LQ). lia. Qed.
Lemma id_deg j : pdeg (n + 1) (fun x => id_factor x j).
Proof.
  unfold id_factor. apply pdeg_add; [apply pdeg_add; [apply wv_deg|apply pdeg_const]|]. apply pdeg_scale, pdeg_scale, pdeg_x. lia.
Qed.
Lemma perm_deg j : pdeg (n + 1) (fun x => perm_factor x j).
Proof. unfold perm_factor. apply pdeg_add; [apply pdeg_add; [apply wv_deg|apply pdeg_const]|]. apply pdeg_scale. apply (pdeg_le n); [lia|]. apply sv_deg. Qed.
Lemma five_deg d (f : F -> nat -> F) : (forall j, pdeg d (fun x => f x j)) -> pdeg (5 * d) (fun x => five (f x)).
Proof.
  intros H. apply (pdeg_le (d + d + d + d + d)); [lia|]. unfold five. repeat apply pdeg_mul; apply H.
Qed.
Lemma pdeg_pow5 d (f : F -> F) : pdeg d f -> pdeg (5 * d) (fun x => fpow (f x) 5).
Proof. intros H. apply (pdeg_ext _ (fun x => five (fun _ => f x))); [intros x; unfold five; cbn [fpow]; ring|]. now apply five_deg. Qed.
Lemma num_deg : pdeg (6 * n + 7) num.
Proof.
  assert (A : pdeg (6 * n + 7) num_gate).
  { unfold num_gate, eval_gate, gate_of. cbn [q1 q2 q3 q4 qm1 qm2 qecc qh1 qh2 qh3 qh4 qc qo].
    assert (T1 : forall j k, pdeg (6 * n + 7) (fun x => qv x j * wv x k)) by (intros j k; apply (pdeg_le (n + (n + 1))); [lia|apply pdeg_mul; [apply qv_deg|apply wv_deg]]).
    assert (T2 : forall j k l, pdeg (6 * n + 7) (fun x => qv x j * (wv x k * wv x l))) by (intros j k l; apply (pdeg_le (n + ((n + 1) + (n + 1)))); [lia|apply pdeg_mul; [apply qv_deg|apply pdeg_mul; apply wv_deg]]).
    assert (T5 : forall j k, pdeg (6 * n + 7) (fun x => qv x j * fpow (wv x k) 5)) by (intros j k; apply (pdeg_le (n + 5 * (n + 1))); [lia|apply pdeg_mul; [apply qv_deg|apply pdeg_pow5, wv_deg]]).
    assert (TE : pdeg (6 * n + 7) (fun x => qv x 7 * wv x 0 * wv x 1 * wv x 2 * wv x 3 * wv x 4)) by (apply (pdeg_le (n + (n + 1) + (n + 1) + (n + 1) + (n + 1) + (n + 1))); [lia|repeat apply pdeg_mul; (apply qv_deg || apply wv_deg)]).
    apply pdeg_sub; [|apply T1]. repeat (apply pdeg_add; [|try first [apply T1|apply T2|apply T5|apply TE]]); try apply T1.
    - apply (pdeg_le n); [lia|apply qv_deg].
    - apply pdeg_hv. lia. }
  assert (B : pdeg (6 * n + 7) num_perm).
  { unfold num_perm. apply pdeg_sub; apply (pdeg_le ((n + 2) + 5 * (n + 1))); try lia; apply pdeg_mul.
    - apply pdeg_hv. lia.
    - exact (five_deg (n + 1) id_factor id_deg).
    - apply (pdeg_shift (n + 2) om (hv z)), pdeg_hv. lia.
    - exact (five_deg (n + 1) perm_factor perm_deg). }
  assert (C : pdeg (6 * n + 7) num_start).
  { unfold num_start. apply (pdeg_le (n + (n + 2))); [lia|]. apply pdeg_mul; [apply pdeg_hv; lia|]. apply pdeg_sub; [apply pdeg_hv; lia|apply pdeg_const]. }
  assert (D : forall j, pdeg (6 * n + 7) (fun x => num_bool x j)).
  { intros j. unfold num_bool. apply (pdeg_le (n + ((n + 1) + (n + 1)))); [lia|]. apply pdeg_mul; [apply pdeg_hv; lia|]. apply pdeg_mul; [apply wv_deg|]. apply pdeg_sub; [apply wv_deg|apply pdeg_const]. }
  unfold num. repeat apply pdeg_add; try apply pdeg_scale; auto.
Qed.
Hypothesis (Pn : (0 < n)%nat) (P : primitive n om).
(** If every constraint holds on the domain, the numerator is a multiple of X^n - 1. *)
Lemma quotient :
  (forall i, (i < n)%nat -> num_gate (fpow om i) = 0) ->
  (forall i, (i < n)%nat -> hv z (fpow om i) * five (id_factor (fpow om i)) = hv z (fpow om (i + 1)) * five (perm_factor (fpow om i))) ->
  (forall i, (i < n)%nat -> num_start (fpow om i) = 0) ->
  (forall i j, (i < n)%nat -> (1 <= j <= 3)%nat -> num_bool (fpow om i) j = 0) ->
  exists t, normal t /\ (length t <= 5 * n + 8)%nat /\ forall x, num x = (fpow x n - 1) * hv t x.
Proof.
  intros G Pm St Bo. destruct (divide_vanishing n om (5 * n + 7) num Pn P) as [t [L V]].
  - apply (pdeg_le (6 * n + 7)); [lia|apply num_deg].
  - intros i Hi. unfold num. rewrite G, St, !Bo by lia. unfold num_perm. rewrite Pm by exact Hi.
    replace (om * fpow om i) with (fpow om (i + 1)) by (rewrite Nat.add_1_r; reflexivity). ring.
  - exists (PolyModel.add [0] t). split; [apply add_normal; discriminate|]. split; [pose proof (add_len [0] t); cbn [length] in *; lia|].
    intros x. rewrite V, hv_add. cbn [hv]. ring.
Qed.
End Numerator.

(** ** Linearisation: at the challenge point, the combination equals what the verifier expects. *)
Section Linearise.
Context {F : PField}.
Add Field Fpz : (f_th F).
(** The combination of the values is what the verifier expects plus the defect of the
    quotient identity. *)
Lemma linearise_gen (W S Q ts : list (list F)) (qb l1 z pi : list F) (ks : list F) (om zh : F) (ch : chals) (nt : nat) :
  length W = 5%nat -> length S = 5%nat -> length Q = 13%nat -> length ks = 5%nat -> length ts = 5%nat ->
  let x := zeta ch in let v := fun p => hv p x in
  pow_limbs x [N.of_nat nt] = fpow x nt ->
  r_combine fadd fsub fmul (selector_multipliers F (wv W x 0) (wv W x 1) (wv W x 2) (wv W x 3) (wv W x 4)) (map v Q) (v qb) ks
    (v (nth 4 S [])) (v z) (map v W) (map v (firstn 4 S)) (hv z (om * x)) ch (map v ts) (v l1) zh nt
  = Ok (alpha ch * hv z (om * x) * ((wv W x 0 + beta ch * sv S x 0 + gamma ch) * (wv W x 1 + beta ch * sv S x 1 + gamma ch)
        * (wv W x 2 + beta ch * sv S x 2 + gamma ch) * (wv W x 3 + beta ch * sv S x 3 + gamma ch)) * (wv W x 4 + gamma ch)
        + v l1 * (alpha ch * alpha ch) - v pi + (num W S Q qb l1 z pi ks om (beta ch) (gamma ch) (alpha ch) x - zh * recombine x nt ts)).
Proof.
  intros HW HS HQ Hk Ht x v Hp.
  destruct W as [|W0 [|W1 [|W2 [|W3 [|W4 [|]]]]]]; try discriminate HW. destruct S as [|S0 [|S1 [|S2 [|S3 [|S4 [|]]]]]]; try discriminate HS.
  do 13 (destruct Q as [|? Q]; [discriminate HQ|]). destruct Q; [|discriminate HQ].
  destruct ks as [|k0 [|k1 [|k2 [|k3 [|k4 [|]]]]]]; try discriminate Hk. destruct ts as [|t0 [|t1 [|t2 [|t3 [|t4 [|]]]]]]; try discriminate Ht.
  unfold r_combine. cbn [selector_multipliers map firstn q_terms k_factors s_factors idx nth_error bind t_terms nth]. fold x. rewrite Hp.
  unfold num, num_gate, num_perm, num_start, num_bool, five, id_factor, perm_factor, gate_of, eval_gate, qv.
  cbn [q1 q2 q3 q4 qm1 qm2 qecc qh1 qh2 qh3 qh4 qc qo nth recombine]. unfold wv, sv in *. cbn [nth] in *.
  change (hv (nth 0 [W0; W1; W2; W3; W4] []) x) with (hv W0 x).
  f_equal. fold x. unfold v. set (f := fpow x nt) in *. clearbody f. cbn [fpow] in *. ring.
Qed.
Lemma linearise (W S Q ts : list (list F)) (qb l1 z pi : list F) (ks : list F) (om zh : F) (ch : chals) (nt : nat) :
  length W = 5%nat -> length S = 5%nat -> length Q = 13%nat -> length ks = 5%nat -> length ts = 5%nat ->
  let x := zeta ch in let v := fun p => hv p x in
  pow_limbs x [N.of_nat nt] = fpow x nt ->
  num W S Q qb l1 z pi ks om (beta ch) (gamma ch) (alpha ch) x = zh * recombine x nt ts ->
  r_combine fadd fsub fmul (selector_multipliers F (wv W x 0) (wv W x 1) (wv W x 2) (wv W x 3) (wv W x 4)) (map v Q) (v qb) ks
    (v (nth 4 S [])) (v z) (map v W) (map v (firstn 4 S)) (hv z (om * x)) ch (map v ts) (v l1) zh nt
  = Ok (alpha ch * hv z (om * x) * ((wv W x 0 + beta ch * sv S x 0 + gamma ch) * (wv W x 1 + beta ch * sv S x 1 + gamma ch)
        * (wv W x 2 + beta ch * sv S x 2 + gamma ch) * (wv W x 3 + beta ch * sv S x 3 + gamma ch)) * (wv W x 4 + gamma ch)
        + v l1 * (alpha ch * alpha ch) - v pi).
Proof.
  intros HW HS HQ Hk Ht x v Hp Hn. unfold v, x in *. cbv zeta. rewrite (linearise_gen W S Q ts qb l1 z pi ks om zh ch nt HW HS HQ Hk Ht Hp), Hn. f_equal. ring.
Qed.
End Linearise.
