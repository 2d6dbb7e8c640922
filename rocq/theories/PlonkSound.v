(** If the verifier's equation holds for enough challenges, the committed columns satisfy the circuit. *)
From Coq Require Import List Arith NArith ZArith Lia Bool Permutation Field Ring.
From Verif Require Import Base Field PField Power TurboModel TurboSpec PermModel PermSpec PermProofs PermProps PolyModel PolySpec PolyProofs PolyLemmas PolyFft PolyProps KzgModel KzgSpec KzgProofs KzgProps PlonkModel PlonkSpec PlonkPoly PlonkProofs PlonkCore PlonkHonest PlonkComplete.
Import ListNotations.
Local Open Scope F_scope.

(** ** The permutation argument *)
Section PermSound.
Context {F : PField}.
Add Field Fps : (f_th F).
Context (M : nat) (v id : nat -> F) (sg : nat -> nat).
Hypothesis (Sg : forall p, (p < M)%nat -> (sg p < M)%nat) (Inj : forall p q, (p < M)%nat -> (q < M)%nat -> id p = id q -> p = q).
Definition prod_id (b g : F) : F := fprod (map (fun p => v p + g + b * id p) (seq 0 M)).
Definition prod_sg (b g : F) : F := fprod (map (fun p => v p + g + b * id (sg p)) (seq 0 M)).
Lemma prod_deg (f : nat -> F) b : pdeg M (fun g => fprod (map (fun p => v p + g + b * f p) (seq 0 M))).
Proof.
  pose proof (pdeg_fprod (map (fun p => fopp (v p + b * f p)) (seq 0 M))) as X. rewrite map_length, seq_length in X.
  eapply pdeg_ext; [|exact X]. intros g. cbv beta. rewrite map_map. apply fprod_ext. intros p _. ring.
Qed.
Lemma found b : more_than M (fun g => prod_id b g = prod_sg b g) -> forall p, (p < M)%nat -> exists q, (q < M)%nat /\ v q + b * id q = v p + b * id (sg p).
Proof.
  intros [l [Nd [L E]]] p Hp.
  assert (A : prod_id b (fopp (v p + b * id (sg p))) = prod_sg b (fopp (v p + b * id (sg p)))).
  { apply (proj1 (fsub_0 F _ _)). apply (pdeg_roots M (fun g => prod_id b g - prod_sg b g) l); auto.
    - apply pdeg_sub; [apply (prod_deg id)|apply (prod_deg (fun p => id (sg p)))].
    - intros g Hg. apply (proj2 (fsub_0 F _ _)). now apply E. }
  assert (B : prod_sg b (fopp (v p + b * id (sg p))) = 0) by (unfold prod_sg; apply (fprod_zero _ _ p); [apply in_seq; lia|ring]).
  rewrite B in A. unfold prod_id in A.
  assert (X : forall l, fprod (map (fun q => v q + fopp (v p + b * id (sg p)) + b * id q) l) = 0 -> exists q, In q l /\ v q + fopp (v p + b * id (sg p)) + b * id q = 0).
  { induction l0 as [|q l0 IH]; intros Z; cbn [map] in Z; [exfalso; rewrite fprod_nil in Z; now apply (f1_neq_0 F)|]. rewrite fprod_cons in Z. apply fmul_0 in Z. destruct Z as [Z|Z]; [exists q; split; [now left|exact Z]|].
    apply IH in Z. destruct Z as [q' [I Z]]. exists q'. split; [now right|exact Z]. }
  apply X in A. destruct A as [q [I A]]. apply in_seq in I. exists q. split; [lia|]. apply (proj1 (fsub_0 F _ _)). rewrite <- A. ring.
Qed.
Lemma pigeon {A} (P : A -> nat -> Prop) : forall k (l : list A), NoDup l -> (k < length l)%nat -> (forall a, In a l -> exists q, (q < k)%nat /\ P a q) ->
  exists a a' q, In a l /\ In a' l /\ a <> a' /\ (q < k)%nat /\ P a q /\ P a' q.
Proof.
  intros k l Nd L H.
  assert (G : exists f : list nat, Forall2 P l f /\ forall q, In q f -> (q < k)%nat).
  { clear Nd L. induction l as [|a l IH]; [exists []; split; [constructor|intros q []]|]. destruct (H a (or_introl eq_refl)) as [q [Hq Pq]]. destruct IH as [f [A1 A2]]; [intros; apply H; now right|].
    exists (q :: f). split; [now constructor|]. intros q' [<-|I]; auto. }
  destruct G as [f [A1 A2]].
  assert (Nf : ~ NoDup f). { intros N'. assert (Lf : length l = length f) by (clear - A1; induction A1; cbn; auto). pose proof (NoDup_incl_length N' (l' := seq 0 k)) as X. rewrite seq_length in X. specialize (X (fun q Hq => proj2 (in_seq _ _ _) (conj (Nat.le_0_l _) (A2 q Hq)))). lia. }
  clear H L. assert (A3 : exists a a' q, In a l /\ In a' l /\ a <> a' /\ In q f /\ P a q /\ P a' q).
  { induction A1 as [|a q l f Pa A1 IH]; [exfalso; apply Nf; constructor|]. inversion Nd as [|? ? Na Nd']; subst. destruct (in_dec Nat.eq_dec q f) as [I|I].
    - assert (X : exists a', In a' l /\ P a' q). { clear - A1 I. induction A1; [destruct I|]. destruct I as [->|I]; [exists x; split; [now left|assumption]|]. destruct (IHA1 I) as [a' [? ?]]. exists a'. split; [now right|assumption]. }
      destruct X as [a' [Ia Pa']]. exists a, a', q. repeat split; auto; [now left|now right|intros ->; contradiction|now left].
    - destruct IH as [a1 [a2 [q' [X1 [X2 [X3 [X4 X5]]]]]]]; [exact Nd'|intros; apply A2; now right|intros N'; apply Nf; now constructor|]. exists a1, a2, q'. repeat split; try (now right); tauto. }
  destruct A3 as [a [a' [q [I1 [I2 [I3 [I4 [I5 I6]]]]]]]]. exists a, a', q. repeat split; auto.
Qed.
Theorem perm_sound : more_than M (fun b => more_than M (fun g => prod_id b g = prod_sg b g)) -> forall p, (p < M)%nat -> v (sg p) = v p.
Proof.
  intros [l [Nd [L E]]] p Hp.
  destruct (pigeon (fun b q => v q + b * id q = v p + b * id (sg p)) M l Nd L) as [b [b' [q [_ [_ [Nb [Hq [E1 E2]]]]]]]].
  { intros b Hb. apply found; auto. }
  assert (X : id q = id (sg p)).
  { apply (proj1 (fsub_0 F _ _)). assert (Z : (b - b') * (id q - id (sg p)) = 0).
    { transitivity ((v q + b * id q) - (v q + b' * id q) - ((v p + b * id (sg p)) - (v p + b' * id (sg p)))); [ring|]. rewrite E1, E2. ring. }
    apply fmul_0 in Z. destruct Z as [Z|Z]; [|exact Z]. exfalso. apply Nb. now apply (proj1 (fsub_0 F _ _)). }
  apply Inj in X; auto. subst q. apply (proj1 (fsub_0 F _ _)). transitivity (v (sg p) + b * id (sg p) - (v p + b * id (sg p))); [ring|]. rewrite E1. ring.
Qed.
End PermSound.

(** ** From the equation to the constraints on the group *)
Section Alpha.
Context {F : PField}.
Add Field Fpa : (f_th F).
Context (W S Q : list (list F)) (qb l1 z pi : list F) (ks : list F) (om b g : F) (n L : nat).
Hypothesis (LW : forall p, In p W -> (length p <= L)%nat) (LS : forall p, In p S -> (length p <= L)%nat) (LQ : forall p, In p Q -> (length p <= L)%nat).
Hypothesis (Lb : (length qb <= L)%nat) (L1 : (length l1 <= L)%nat) (Lpi : (length pi <= L)%nat) (Lz : (length z <= L)%nat).
Hypothesis (Pn : (0 < n)%nat) (P : primitive n om).
Lemma recombine_deg nt d : forall ts, (forall p, In p ts -> (length p <= L)%nat) -> (length ts * nt + L <= d)%nat -> pdeg d (fun x : F => recombine x nt ts).
Proof.
  intros ts. revert d. induction ts as [|t ts IH]; intros d Ht Hd; [exact (pdeg_const d 0)|]. cbn [length] in Hd. apply pdeg_add.
  - apply pdeg_hv. pose proof (Ht t (or_introl eq_refl)). lia.
  - apply (pdeg_le (nt + (d - nt))); [lia|]. apply pdeg_mul; [apply pdeg_pow|]. apply IH; [intros; apply Ht; now right|lia].
Qed.
Lemma on_group a nt ts : length ts = 5%nat -> (forall p, In p ts -> (length p <= L)%nat) ->
  more_than (6 * L + n + 5 * nt + 7) (fun x => num W S Q qb l1 z pi ks om b g a x = (fpow x n - 1) * recombine x nt ts) ->
  forall i, num W S Q qb l1 z pi ks om b g a (fpow om i) = 0.
Proof.
  intros Lt Ht [l [Nd [Ll E]]] i.
  assert (X : forall x, num W S Q qb l1 z pi ks om b g a x - (fpow x n - 1) * recombine x nt ts = 0).
  { apply (pdeg_roots (6 * L + n + 5 * nt + 7) _ l); auto.
    - apply pdeg_sub.
      + apply (pdeg_le (6 * L + 7)); [lia|]. apply num_deg; auto; try (intros p Hp; (apply LW in Hp || apply LS in Hp || apply LQ in Hp); lia); lia.
      + apply (pdeg_le (n + (5 * nt + L))); [lia|]. apply pdeg_mul; [apply pdeg_sub; [apply pdeg_pow|apply pdeg_const]|]. apply recombine_deg; [exact Ht|rewrite Lt; lia].
    - intros x Hx. apply (proj2 (fsub_0 F _ _)). now apply E. }
  specialize (X (fpow om i)). rewrite (fpow_root n om i P) in X. rewrite <- X. ring.
Qed.
Lemma components : more_than 5 (fun a => forall i, (i < n)%nat -> num W S Q qb l1 z pi ks om b g a (fpow om i) = 0) ->
  forall i, (i < n)%nat -> let x := fpow om i in
  num_gate W Q pi x = 0 /\ num_perm W S z ks om b g x = 0 /\ num_start l1 z x = 0 /\ num_bool W qb x 1 = 0 /\ num_bool W qb x 2 = 0 /\ num_bool W qb x 3 = 0.
Proof.
  intros [l [Nd [Ll E]]] i Hi x.
  pose (p := [num_gate W Q pi x; num_perm W S z ks om b g x; num_start l1 z x; num_bool W qb x 1; num_bool W qb x 2; num_bool W qb x 3]).
  assert (X : forall j, coef p j = 0).
  { apply (roots_bound l); [exact Nd|cbn; lia|]. intros a Ha. rewrite <- (E a Ha i Hi). unfold num, p. fold x. cbn [hv]. ring. }
  repeat split; [exact (X 0%nat)|exact (X 1%nat)|exact (X 2%nat)|exact (X 3%nat)|exact (X 4%nat)|exact (X 5%nat)].
Qed.
End Alpha.

(** ** The whole argument *)
Section Sound.
Context {F : PField} {G1 : Mod F} (base1 : G1).
Add Field Fso : (f_th F).
Context (gs : list (gate F)) (nv : nat) (s : F) (ks : list F) (wm : F) (perm : list nat).
Notation n := (length gs).
Notation m := (quot_eval_dom_size (length gs)).
Let om := fpow wm (m / n).
Hypothesis (Sn : supported n) (Bm : (N.of_nat m < 2 ^ 32)%N) (Pm : primitive m wm).
Hypothesis (Lk : length ks = 5%nat) (K0 : nth 0 ks 0 = 1).
Hypothesis (Hperm : compute_permutation nv (wires gs) = Ok perm).
Hypothesis (Names : forall p q, (p < 5 * n)%nat -> (q < 5 * n)%nat -> name_of n om ks p = name_of n om ks q -> p = q).
Notation pk := (pk0 base1 gs s ks wm perm).
Notation S_ := (sp gs ks wm perm).
Notation Q_ := (qp gs wm).
Notation qb_ := (qbp gs wm).
Notation l1_ := (l1p gs wm).
Context (W : list (list F)) (pi : list F) (L : nat).
Hypothesis (LW5 : length W = 5%nat) (LW : forall p, In p W -> (length p <= L)%nat) (Lpi : (length pi <= L)%nat) (Ln : (n <= L)%nat).
Let Hle : (n + 2 <= n + 2)%nat := le_n (n + 2).
Lemma equation_iff z ts ch : length ts = 5%nat -> equation_holds pk n W z ts pi ch ->
  num W S_ Q_ qb_ l1_ z pi ks om (beta ch) (gamma ch) (alpha ch) (zeta ch) = (fpow (zeta ch) n - 1) * recombine (zeta ch) (n + 2) ts.
Proof.
  intros Lt H. unfold equation_holds in H. cbv zeta in H. set (x := zeta ch) in *. destruct H as [zh [l1 [r [E1 [E2 E3]]]]].
  cbn [s_polys pk0 pk_vk vk0 vk_root] in *. fold om in E2, E3. rewrite !eval_hv_map in E2, E3. rewrite (eval_hv z) in E2, E3. rewrite (eval_hv pi), (eval_hv r) in E3.
  assert (Ez : zh = fpow x n - 1 /\ l1 = hv l1_ x).
  { unfold first_lagrange in E1. rewrite (pow_small gs (n + 2) ks Sn Bm Lk Hle) in E1 by lia. destruct (feqb_spec (x - 1) 0) as [X|X]; [discriminate E1|]. injection E1 as <- <-. split; [reflexivity|].
    rewrite <- (l1_value gs (n + 2) ks wm Sn Bm Pm Lk Hle x). field. exact X. }
  destruct Ez as [-> ->].
  pose proof (linearise_gen W S_ Q_ ts qb_ l1_ z pi ks om (fpow x n - 1) ch (n + 2) LW5 eq_refl eq_refl Lk Lt (pow_small gs (n + 2) ks Sn Bm Lk Hle x (n + 2) ltac:(lia))) as Lin.
  cbv zeta in Lin. fold x in Lin.
  unfold r_poly in E2. cbn [s_polys pk0 q_polys qb_poly pk_vk vk0 vk_k] in E2.
  assert (Em : eval_selector_multipliers (map (fun p => hv p x) W) = Ok (selector_multipliers F (wv W x 0) (wv W x 1) (wv W x 2) (wv W x 3) (wv W x 4))).
  { clear - LW5. destruct W as [|W0 [|W1 [|W2 [|W3 [|W4 [|]]]]]]; try discriminate LW5. reflexivity. }
  rewrite Em in E2. cbn [unwrap bind] in E2. rewrite (idx_nth S_ 4 []) in E2 by (cbn; lia). cbn [bind] in E2.
  pose proof (r_combine_hv x (selector_multipliers F (wv W x 0) (wv W x 1) (wv W x 2) (wv W x 3) (wv W x 4)) Q_ qb_ ks (nth 4 S_ []) z (map (fun p => hv p x) W) (map (fun p => hv p x) (firstn 4 S_)) (hv z (om * x)) ch ts (hv l1_ x) (fpow x n - 1) (n + 2)) as Rh.
  rewrite E2 in Rh. cbv beta in Rh. rewrite Lin in Rh. cbn [rres] in Rh. rewrite Rh in E3. clear - E3 LW5.
  assert (Ls : length S_ = 5%nat) by reflexivity. revert Ls E3. generalize S_. intros Sl Ls E3. unfold r_eval_zeta in E3. cbn [ev_w ev_s ev_zw] in E3.
  destruct W as [|W0 [|W1 [|W2 [|W3 [|W4 [|]]]]]]; try discriminate LW5. destruct Sl as [|S0 [|S1 [|S2 [|S3 [|S4 [|]]]]]]; try discriminate Ls.
  cbn [map firstn s_factors bind length Nat.sub idx nth_error] in E3. unfold wv, sv in E3. cbn [nth] in E3. apply Ok_inj in E3. apply (proj1 (fsub_0 F _ _)).
  match type of E3 with ?A = ?B => transitivity (B - A); [|rewrite E3; ring] end. fold x. set (nm := num _ _ _ _ _ _ _ _ _ _ _ _ _). ring.
Qed.
(** Everything that must hold for [b] and [g]. *)
Definition good_bg (b g : F) : Prop := exists z, (length z <= L)%nat /\ more_than 5 (fun a => exists ts, length ts = 5%nat /\ (forall p, In p ts -> (length p <= L)%nat) /\
  more_than (6 * L + 6 * n + 17) (fun x => forall u, equation_holds pk n W z ts pi (mkCh b g a x u))).
Lemma on_rows b g : good_bg b g -> exists z, forall i, (i < n)%nat -> let x := fpow om i in
  num_gate W Q_ pi x = 0 /\ num_perm W S_ z ks om b g x = 0 /\ num_start l1_ z x = 0 /\ num_bool W qb_ x 1 = 0 /\ num_bool W qb_ x 2 = 0 /\ num_bool W qb_ x 3 = 0.
Proof.
  intros [z [Lz [l [Nd [Ll H]]]]]. exists z. destruct (cols_len gs nv (n + 2) ks wm perm Sn Bm Pm Lk Hle Hperm []) as [Cs [Cq [[_ Cb] [[_ C1] _]]]].
  pose proof (supported_pos n Sn) as Pn. apply (components W S_ Q_ qb_ l1_ z pi ks om b g n L); try lia. exists l. split; [exact Nd|]. split; [exact Ll|]. intros a Ha i Hi. destruct (H a Ha) as [ts [Lt [Hts [l' [Nd' [Ll' E]]]]]].
  apply (on_group W S_ Q_ qb_ l1_ z pi ks om b g n L) with (nt := (n + 2)%nat) (ts := ts); auto; try lia.
  - intros p Hp. apply Cs in Hp. lia.
  - intros p Hp. apply Cq in Hp. lia.
  - apply (Pom gs (n + 2) ks wm); auto.
  - exists l'. split; [exact Nd'|]. split; [lia|]. intros x Hx. exact (equation_iff z ts (mkCh b g a x 0) Lt (E x Hx 0)).
Qed.
Notation g0 := (gate_of (fun _ => 0)).
(** The value at position [p]. *)
Definition at_pos (p : nat) : F := hv (nth (p / n) W []) (fpow om (p mod n)).
Lemma at_pos_at j i : (i < n)%nat -> at_pos (j * n + i) = wv W (fpow om i) j.
Proof. intros H. unfold at_pos. rewrite Nat.add_comm, Nat.div_add, Nat.div_small, Nat.mod_add, Nat.mod_small by lia. reflexivity. Qed.
Lemma products b g : good_bg b g -> prod_id (5 * n) at_pos (name_of n om ks) b g = prod_sg (5 * n) at_pos (name_of n om ks) (fun p => nth p perm 0%nat) b g.
Proof.
  intros H. destruct (on_rows b g H) as [z R]. pose proof (supported_pos n Sn) as Pn. pose proof (Pom gs (n + 2) ks wm Sn Bm Pm Lk Hle) as Po. fold om in Po.
  unfold prod_id, prod_sg. rewrite <- !(fprod_five n).
  assert (Ei : forall i, (i < n)%nat -> five (fun j => at_pos (j * n + i) + g + b * name_of n om ks (j * n + i)) = five (id_factor W ks b g (fpow om i))).
  { intros i Hi. unfold five, id_factor. rewrite !at_pos_at by exact Hi. change (name_of n om ks) with (position n om ks). rewrite !position_at by exact Hi. reflexivity. }
  assert (Ep : forall i, (i < n)%nat -> five (fun j => at_pos (j * n + i) + g + b * name_of n om ks (nth (j * n + i) perm 0%nat)) = five (perm_factor W S_ b g (fpow om i))).
  { intros i Hi. unfold five, perm_factor. rewrite !at_pos_at by exact Hi. unfold om at 1 2 3 4 5. rewrite !(S_on gs nv (n + 2) ks wm perm Sn Bm Pm Lk K0 Hle Hperm) by (try exact Hi; lia). reflexivity. }
  rewrite (fprod_ext _ (fun i => five (id_factor W ks b g (fpow om i))) _) by (intros i Hi; apply in_seq in Hi; apply Ei; lia).
  rewrite (fprod_ext (fun i => five (fun j => at_pos (j * n + i) + g + b * name_of n om ks (nth (j * n + i) perm 0%nat))) (fun i => five (perm_factor W S_ b g (fpow om i))) _) by (intros i Hi; apply in_seq in Hi; apply Ep; lia).
  assert (Z1 : hv z 1 = 1).
  { destruct (R 0%nat Pn) as [_ [_ [St _]]]. unfold num_start in St. cbn [fpow] in St. apply fmul_0 in St. destruct St as [St|St]; [|now apply (proj1 (fsub_0 F _ _))]. exfalso.
    destruct (interp_ok gs (n + 2) ks wm Sn Bm Pm Lk Hle [fofN (N.of_nat n)] ltac:(cbn [length]; lia)) as [_ [_ [_ C]]]. specialize (C 0%nat Pn). cbn [fpow] in C. unfold l1p in St. rewrite St in C. unfold coef in C. cbn [nth] in C.
    symmetry in C. revert C. apply (primitive_size n om); [exact Po|exact Pn]. }
  assert (T : forall k, (k <= n)%nat -> fprod (map (fun i => five (id_factor W ks b g (fpow om i))) (seq 0 k)) = hv z (fpow om k) * fprod (map (fun i => five (perm_factor W S_ b g (fpow om i))) (seq 0 k))).
  { induction k as [|k IH]; intros Hk; [cbn [seq map fpow]; rewrite Z1; ring|]. rewrite seq_S, !map_app, !fprod_app, IH by lia. cbn [map Nat.add]. rewrite !fprod_cons, !fprod_nil.
    destruct (R k ltac:(lia)) as [_ [Pk _]]. unfold num_perm in Pk. apply (proj1 (fsub_0 F _ _)) in Pk. cbn [fpow].
    transitivity (fprod (map (fun i => five (perm_factor W S_ b g (fpow om i))) (seq 0 k)) * (hv z (fpow om k) * five (id_factor W ks b g (fpow om k)))); [ring|]. rewrite Pk. ring. }
  rewrite (T n (le_n _)), (proj1 Po), Z1. ring.
Qed.
Theorem sound : more_than (5 * n) (fun b => more_than (5 * n) (fun g => good_bg b g)) ->
  exists w, circuit_holds gs w (fun i => value pi (fpow om i)) /\
    forall i j g, nth_error gs i = Some g -> (j < 5)%nat -> value (nth j W []) (fpow om i) = w (wire_of j g).
Proof.
  intros H. pose proof (supported_pos n Sn) as Pn.
  assert (Wl : length (wires gs) = (5 * n)%nat) by (unfold wires; rewrite !app_length, !map_length; lia).
  assert (Cp : forall p, (p < 5 * n)%nat -> at_pos (nth p perm 0%nat) = at_pos p).
  { apply (perm_sound (5 * n) at_pos (name_of n om ks) (fun p => nth p perm 0%nat)); [|exact Names|].
    - destruct (C36_bijection _ _ _ Hperm) as [_ [Bj _]]. rewrite Wl in Bj. exact Bj.
    - destruct H as [l [Nd [Ll H]]]. exists l. split; [exact Nd|]. split; [exact Ll|]. intros b Hb. destruct (H b Hb) as [l' [Nd' [Ll' H']]]. exists l'. split; [exact Nd'|]. split; [exact Ll'|]. intros g Hg. apply products, H', Hg. }
  assert (Cc : forall p q, (p < 5 * n)%nat -> (q < 5 * n)%nat -> nth p (wires gs) 0%nat = nth q (wires gs) 0%nat -> at_pos p = at_pos q).
  { rewrite <- Wl in *. apply (C36_copy_constraints nv (wires gs) perm at_pos Hperm). exact Cp. }
  (* the assignment: the value at the first position of the variable *)
  pose (w := fun v => match find (fun p => Nat.eqb (nth p (wires gs) 0%nat) v) (seq 0 (5 * n)) with Some p => at_pos p | None => 0 end).
  assert (Hw : forall p, (p < 5 * n)%nat -> w (nth p (wires gs) 0%nat) = at_pos p).
  { intros p Hp. unfold w. destruct (find _ _) as [q|] eqn:E.
    - apply find_some in E. destruct E as [I E]. apply Nat.eqb_eq in E. apply in_seq in I. apply Cc; auto; lia.
    - exfalso. pose proof (find_none _ _ E p ltac:(apply in_seq; lia)) as X. cbv beta in X. rewrite Nat.eqb_refl in X. discriminate X. }
  assert (Ww : forall i j, (i < n)%nat -> (j < 5)%nat -> wv W (fpow om i) j = w (wire_of j (nth i gs g0))).
  { intros i j Hi Hj. rewrite <- at_pos_at by exact Hi. rewrite <- Hw by nia. f_equal. unfold wires.
    assert (X : forall f : gate F -> nat, nth i (map f gs) 0%nat = f (nth i gs g0)) by (intros f; rewrite (nth_indep _ 0%nat (f g0)) by (rewrite map_length; exact Hi); apply map_nth).
    assert (A : forall (f : gate F -> nat) l k, nth (n + k) (map f gs ++ l) 0%nat = nth k l 0%nat) by (intros f l k; rewrite app_nth2; rewrite map_length; [f_equal; lia|lia]).
    do 5 (destruct j as [|j]; [cbn [Nat.mul Nat.add wire_of]; rewrite <- ?Nat.add_assoc, ?A; try (rewrite app_nth1 by (rewrite map_length; exact Hi)); now rewrite X|]). lia. }
  assert (B : exists b g, good_bg b g).
  { destruct H as [l [_ [Ll H]]]. destruct l as [|b l]; [cbn in Ll; lia|]. destruct (H b (or_introl eq_refl)) as [l' [_ [Ll' H']]]. destruct l' as [|g l']; [cbn in Ll'; lia|]. exists b, g. apply H'. now left. }
  destruct B as [b [g B]]. destruct (on_rows b g B) as [z R]. exists w. split.
  - intros i gt E. assert (Hi : (i < n)%nat) by (apply nth_error_Some; congruence). assert (Eg : nth i gs g0 = gt) by now apply nth_error_nth.
    destruct (R i Hi) as [Gt [_ [_ [B1 [B2 B3]]]]]. pose proof (fun j Hj => Ww i j Hi Hj) as Wi. rewrite Eg in Wi. split.
    + unfold num_gate in Gt. rewrite !Wi in Gt by lia. unfold gate_of, eval_gate in Gt. cbn [q1 q2 q3 q4 qm1 qm2 qecc qh1 qh2 qh3 qh4 qc qo] in Gt.
      unfold om in Gt at 1 2 3 4 5 6 7 8 9 10 11 12 13. rewrite !(Q_on gs (n + 2) ks wm Sn Bm Pm Lk Hle) in Gt by (try exact Hi; lia). unfold selector_cols in Gt. cbn [nth] in Gt.
      assert (X : forall f : gate F -> F, nth i (map f gs) 0 = f gt) by (intros f; rewrite (nth_indep _ 0 (f g0)) by (rewrite map_length; exact Hi); rewrite map_nth, Eg; reflexivity).
      rewrite !X in Gt. apply (proj1 (fsub_0 F _ _)) in Gt. rewrite <- hv_value. exact Gt.
    + intros Hb. unfold num_bool in B1, B2, B3. rewrite !Wi in B1, B2, B3 by lia. unfold om in B1, B2, B3. rewrite (qb_on gs (n + 2) ks wm Sn Bm Pm Lk Hle i Hi), Eg, Hb in B1, B2, B3.
      assert (Y : forall x : F, 1 * (x * (x - 1)) = 0 -> boolean x).
      { intros x Z. assert (Z' : x * (x - 1) = 0) by (rewrite <- Z; ring). apply fmul_0 in Z'. destruct Z' as [Z'|Z']; [now left|right; now apply (proj1 (fsub_0 F _ _))]. }
      split; [|split]; apply Y; assumption.
  - intros i j gt E Hj. assert (Hi : (i < n)%nat) by (apply nth_error_Some; congruence). assert (Eg : nth i gs g0 = gt) by now apply nth_error_nth.
    rewrite <- hv_value. change (wv W (fpow om i) j = w (wire_of j gt)). now rewrite Ww, Eg.
Qed.
End Sound.
