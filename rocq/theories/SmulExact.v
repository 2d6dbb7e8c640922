(** The verifier's and the prover's scalar-multiplication systems. *)
From Coq Require Import List Arith NArith ZArith Bool Lia Field Ring.
From Verif Require Import Base Field PField CmixModel CmixSpec CmixProofs CmixSystem BucketModel BucketSpec SmulModel SmulSpec SmulProofs.
Import ListNotations.
Local Open Scope F_scope.

Section Exact.
Context {F : PField}.
Add Field Fse : (f_th F).
Ltac conj := repeat match goal with |- _ /\ _ => split end.
Notation cs := (cs F).
Notation pt := (pt F).

Definition start3 (x y k : F) : cs := snd (allocate k (snd (allocate y (snd (allocate x empty))))).
Lemma good_empty : good (empty : cs). Proof. constructor; cbn; auto. Qed.
Lemma start3_ok x y k : good (start3 x y k) /\ nv (start3 x y k) = 3%nat /\ (forall w, sat (start3 x y k) w) /\
  wval (start3 x y k) 0%nat = x /\ wval (start3 x y k) 1%nat = y /\ wval (start3 x y k) 2%nat = k.
Proof.
  unfold start3. destruct (alloc_ok x empty good_empty) as [G1 [_ [N1 _]]]. destruct (alloc_ok y _ G1) as [G2 [_ [N2 _]]]. destruct (alloc_ok k _ G2) as [G3 [_ [N3 _]]].
  conj; auto. intros w. split; constructor.
Qed.
Lemma system_eq d pts vals : system (F := F) d pts vals =
  gadget d pts (mkPvar 0 1) 2 vals (start3 (ov 0 (option_map (fun v => fst (fst v)) vals)) (ov 0 (option_map (fun v => snd (fst v)) vals)) (ov 0 (option_map snd vals))).
Proof. destruct vals as [[[x y] k]|]; reflexivity. Qed.

(** The beginning of the gadget: the dummy point and the bits. *)
Definition prefix (d : pt) (sk : nat) (cur : option pt) (bits : list (option bool)) (c : cs) : list nat * cs :=
  let (cv, c1) := allocate_point cur c in
  let c2 := constrain (lsub (lvar (py cv)) (lconst (snd d))) (constrain (lsub (lvar (px cv)) (lconst (fst d))) c1) in
  let (bv, c3) := alloc_bits bits c2 in
  (bv, constrain (lsub (weighted 1 bv) (lvar sk)) c3).
Lemma prefix_ok d sk cur bits c : good c -> (sk < nv c)%nat ->
  let r := prefix d sk cur bits c in let c' := snd r in let cv := mkPvar (nv c) (1 + nv c) in
  length (fst r) = length bits /\ Forall (fun v => (v < nv c')%nat) (fst r) /\ good c' /\ ext c c' /\ wfp (nv c') cv /\
  (forall w, sat c' w -> sat c w /\ at_ w cv = d /\ exists bs, length bs = length bits /\ map w (fst r) = map b2f bs /\ w sk = fofZ (bits_val bs)) /\
  (forall w bs, length bs = length bits -> sat c w -> w sk = fofZ (bits_val bs) -> exists w', agree (nv c) w w' /\ sat c' w' /\ at_ w' cv = d /\ map w' (fst r) = map b2f bs) /\
  (forall bs, cur = Some d -> bits = map Some bs -> sat c (wval c) -> wval c sk = fofZ (bits_val bs) ->
     sat c' (wval c') /\ at_ (wval c') cv = d /\ map (wval c') (fst r) = map b2f bs).
Proof.
  intros G L. cbv zeta. unfold prefix, allocate_point, alloc_opt. set (vx := match option_map fst cur with Some x => x | None => 0 end). set (vy := match option_map snd cur with Some x => x | None => 0 end).
  destruct (alloc_ok vx c G) as [G1 [E1 [N1 [S1 V1]]]]. destruct (allocate vx c) as [v1 c1] eqn:A1. assert (v1 = nv c) by (injection A1; auto). cbn [fst snd] in *.
  destruct (alloc_ok vy c1 G1) as [G2 [E2 [N2 [S2 V2]]]]. destruct (allocate vy c1) as [v2 c2] eqn:A2. assert (v2 = nv c1) by (injection A2; auto). cbn [fst snd px py] in *.
  subst v1 v2. set (c3 := constrain _ c2). set (c4 := constrain _ c3).
  assert (G3 : good c3) by (apply good_constrain; [exact G2|apply wf_lsub; [apply wf_lvar; lia|apply wf_lconst]]).
  assert (G4 : good c4) by (apply good_constrain; [exact G3|change (nv c3) with (nv c2); apply wf_lsub; [apply wf_lvar; lia|apply wf_lconst]]).
  assert (SI : forall w, sat c4 w <-> sat c w /\ w (nv c) = fst d /\ w (1 + nv c)%nat = snd d).
  { intros w. unfold c4, c3. rewrite !sat_constrain, S2, S1, !leval_sub, !leval_var, !leval_const, N1. cbn [Nat.add]. split.
    - intros [[A B] D]. apply (proj1 (fsub_0 F _ _)) in B, D. auto.
    - intros [A [-> ->]]. conj; auto; ring. }
  destruct (alloc_bits_ok bits c4 G4) as [L5 [B5 [G5 [E5 [D5 [Ad5 H5]]]]]]. destruct (alloc_bits bits c4) as [bv c5]. cbn [fst snd] in *.
  set (c6 := constrain _ c5).
  assert (N4 : nv c4 = (2 + nv c)%nat) by (change (nv c4) with (nv c2); lia).
  assert (Le : (2 + nv c <= nv c5)%nat) by (destruct E5; lia).
  assert (G6 : good c6) by (apply good_constrain; [exact G5|apply wf_lsub; [now apply wf_weighted|apply wf_lvar; lia]]).
  assert (E04 : ext c c4) by (eapply ext_trans; [exact E1|exact E2]).
  assert (E06 : ext c c6) by (eapply ext_trans; [exact E04|exact E5]).
  conj; auto.
  - split; cbn; change (nv c6) with (nv c5); lia.
  - intros w Sw. unfold c6 in Sw. apply sat_constrain in Sw. destruct Sw as [Sw H]. apply D5 in Sw. destruct Sw as [Sw [bs [Lb Eb]]]. apply SI in Sw. destruct Sw as [Sw [Ex Ey]].
    split; [exact Sw|]. split; [unfold at_; cbn [px py]; rewrite Ex, Ey; now destruct d|]. exists bs. conj; auto. rewrite leval_sub, leval_var, (weighted_val w bv bs 1 Eb) in H. apply (proj1 (fsub_0 F _ _)) in H. rewrite <- H. ring.
  - intros w bs Lb Sw Hk. set (w1 := over (nv c) w [fst d; snd d]).
    assert (Sw1 : sat c4 w1). { apply SI. pose proof (over_ge (nv c) w [fst d; snd d] 0) as Q0. pose proof (over_ge (nv c) w [fst d; snd d] 1) as Q1. conj; auto. apply (sat_agree c w); auto. apply over_agree. }
    destruct (Ad5 w1 bs Lb Sw1) as [w2 [Ag [Sw2 Eb]]]. exists w2.
    assert (Ag' : agree (nv c) w w2) by (intros i Hi; rewrite <- Ag by lia; unfold w1; now rewrite over_lt).
    conj; auto.
    + unfold c6. apply sat_constrain. split; [exact Sw2|]. rewrite leval_sub, leval_var, (weighted_val w2 bv bs 1 Eb), <- Ag', Hk by lia. ring.
    + unfold at_. cbn [px py]. rewrite <- !Ag by lia. unfold w1. rewrite (over_ge (nv c) w [fst d; snd d] 1). pose proof (over_ge (nv c) w [fst d; snd d] 0) as Q0. change (0 + nv c)%nat with (nv c) in Q0. rewrite Q0. now destruct d.
  - intros bs -> -> Sc Hk. cbn in vx, vy.
    assert (Sc4 : sat c4 (wval c4)). { apply SI. conj.
      - apply (sat_agree c (wval c)); auto. intros i Hi. symmetry. now apply E04.
      - change (wval c4) with (wval c2). rewrite (proj2 E2) by lia. exact V1.
      - change (wval c4) with (wval c2). replace (1 + nv c)%nat with (nv c1) by lia. exact V2. }
    destruct (H5 bs eq_refl Sc4) as [Sc5 Eb]. apply SI in Sc4. destruct Sc4 as [_ [X Y]]. conj; auto.
    + unfold c6. apply sat_constrain. split; [exact Sc5|]. change (wval (constrain _ c5)) with (wval c5). rewrite leval_sub, leval_var, (weighted_val (wval c5) bv bs 1 Eb). change (wval c5 sk) with (wval c6 sk). rewrite (proj2 E06), Hk by lia. ring.
    + unfold at_. cbn [px py]. change (wval c6) with (wval c5). rewrite !(proj2 E5) by lia. rewrite X, Y. now destruct d.
Qed.
Definition bits_of (n : nat) (vals : option (pt * F)) : list (option bool) := match vals with Some (_, k) => map Some (bits_le n (toZ k)) | None => repeat None n end.
Lemma gadget_eq d pts pk sk vals c : gadget d pts pk sk vals c =
  let cur := match vals with Some _ => Some d | None => None end in
  let r := prefix d sk cur (bits_of (length pts) vals) c in
  bind (add_points (combine (combine (bits_of (length pts) vals) (fst r)) pts) cur (mkPvar (nv c) (1 + nv c)) (snd r)) (fun r =>
    let '(_, cv', c5) := r in
    bind (point_add_constant pk (option_map fst vals) d c5) (fun q =>
      let '(_, rv, c6) := q in
      Ok (constrain (lsub (lvar (py cv')) (lvar (py rv))) (constrain (lsub (lvar (px cv')) (lvar (px rv))) c6)))).
Proof. unfold gadget, prefix, bits_of. destruct vals as [[p k]|]; cbn -[alloc_bits point_add_constant add_points bits_le constrain weighted]; match goal with |- context [alloc_bits ?b ?c] => destruct (alloc_bits b c) end; reflexivity. Qed.

(** What the verifier's system says. *)
Theorem accepts_iff d pts x y k : accepts (F := F) d pts x y k <->
  exists bs ss t, length bs = length pts /\ length ss = length pts /\ k = fofZ (bits_val bs) /\
    plus_slope t (x, y) d = walk (combine (combine bs pts) ss) d.
Proof.
  unfold accepts, verifier_system. rewrite system_eq. cbn [option_map ov].
  destruct (start3_ok 0 0 0) as [G [N [Sa _]]]. set (c := start3 0 0 0) in *. clearbody c. rewrite gadget_eq. cbv zeta. cbn [option_map bits_of].
  assert (Ls : (2 < nv c)%nat) by lia.
  destruct (prefix_ok d 2 None (repeat None (length pts)) c G Ls) as [L1 [B1 [G1 [E1 [W1 [D1 [A1 _]]]]]]].
  destruct (prefix d 2 None (repeat None (length pts)) c) as [bv c1]. cbn [fst snd] in *. rewrite repeat_length in *.
  destruct (add_points_ok pts bv (mkPvar (nv c) (1 + nv c)) c1 L1 G1 W1 B1) as [cv' [c2 [Q2 [G2 [E2 [W2 [D2 A2]]]]]]]. rewrite Q2. cbn [bind].
  rewrite add_eq. cbn [bind ov fst snd option_map].
  assert (L2 : (px (mkPvar 0 1) < nv c2)%nat) by (cbn; destruct E1, E2; lia).
  destruct (add_core_ok 0 (0, 0) (mkPvar 0 1) d c2 G2 L2) as [R3 [G3 [E3 [N3 [S3 _]]]]].
  pose proof (fun w s' => add_core_adv 0 (0, 0) (mkPvar 0 1) d c2 w s' G2 L2) as A3.
  destruct (add_core 0 (0, 0) (mkPvar 0 1) d c2) as [rv c3]. cbn [fst snd px py] in *. subst rv. cbn [px py].
  set (c4 := constrain _ c3). set (c5 := constrain _ c4).
  assert (SI : forall w, sat c5 w <-> sat c3 w /\ at_ w cv' = at_ w (mkPvar (1 + nv c2) (2 + nv c2))).
  { intros w. unfold c5, c4, at_. cbn [px py]. rewrite !sat_constrain, !leval_sub, !leval_var. split.
    - intros [[A B] C]. apply (proj1 (fsub_0 F _ _)) in B, C. rewrite B, C. auto.
    - intros [A B]. injection B as B C. conj; auto; apply (proj2 (fsub_0 F _ _)); assumption. }
  assert (Lc : (nv c <= nv c1 <= nv c2)%nat) by (destruct E1, E2; lia).
  split.
  - intros [c' [w [E [Sw [Hx [Hy Hk]]]]]]. apply Ok_inj in E. subst c'. apply SI in Sw. destruct Sw as [Sw Hp]. apply S3 in Sw. destruct Sw as [Sw [_ [_ [J3 [_ [_ [J6 [J7 J8]]]]]]]].
    destruct (D2 w Sw) as [Sw1 D2']. apply D1 in Sw1. destruct Sw1 as [_ [Hd [bs [Lb [Eb Ek]]]]]. destruct (D2' bs Eb) as [ss [Lss Ew]].
    exists bs, ss, (w (nv c2)). conj; auto; [congruence|]. rewrite Hd in Ew. rewrite <- Ew, Hp. unfold at_, plus_slope. cbn [px py fst snd]. rewrite <- Hx.
    assert (X : w (1 + nv c2)%nat = w (nv c2) * w (nv c2) - w 0%nat - fst d) by (rewrite <- J3, J7; ring). f_equal; [now rewrite X|]. rewrite <- X, <- J6, J8. ring.
  - intros [bs [ss [t [Lb [Lss [Ek Ew]]]]]]. eexists. set (w0 := fun i => match i with 0%nat => x | 1%nat => y | _ => k end).
    destruct (A1 w0 bs Lb (Sa w0) Ek) as [w1 [Ag1 [Sw1 [Hd Eb]]]]. destruct (A2 w1 bs ss Sw1 Eb Lss) as [w2 [Ag2 [Sw2 Hw]]]. destruct (A3 w2 t Sw2) as [w3 [Ag3 [Sw3 H3]]].
    assert (K : forall i, (i < 3)%nat -> w3 i = w0 i) by (intros i Hi; rewrite <- Ag3, <- Ag2, <- Ag1 by lia; reflexivity).
    exists w3. split; [reflexivity|]. conj; [|now rewrite K by lia|now rewrite K by lia|now rewrite K by lia].
    apply SI. split; [exact Sw3|]. unfold at_ at 2. cbn [px py]. rewrite H3.
    destruct W2 as [W2x W2y]. unfold at_ at 1. rewrite <- !Ag3 by assumption. change (w2 (px cv'), w2 (py cv')) with (at_ w2 cv'). rewrite Hw, Hd, <- Ew. apply plus_slope_y. cbn [fst]. rewrite Ag3, K by lia. reflexivity.
Qed.

(** ** Forging *)
Definition wt (l : list (bool * pt)) : nat := length (filter fst l).
Lemma wt_combine bs (pts : list pt) : length bs = length pts -> wt (combine bs pts) = weight bs.
Proof. unfold wt, weight. revert pts. induction bs as [|b bs IH]; intros [|p pts] L; try discriminate; [reflexivity|]. cbn. injection L as L. destruct b; cbn; now rewrite IH. Qed.
Lemma walk_app : forall (l l' : list (bool * pt)) ss ss' p, length ss = length l -> walk (combine (l ++ l') (ss ++ ss')) p = walk (combine l' ss') (walk (combine l ss) p).
Proof. induction l as [|[b g] l IH]; intros l' [|s ss] ss' p L; try discriminate; [reflexivity|]. cbn. apply IH. now injection L. Qed.
(** No set bit: nothing happens. *)
Lemma walk_id : forall (l : list (bool * pt)) ss p, wt l = 0%nat -> walk (combine l ss) p = p.
Proof. induction l as [|[b g] l IH]; intros [|s ss] p H; try reflexivity. unfold wt in H. cbn in H. destruct b; [discriminate|]. cbn. now apply IH. Qed.
(** All slopes zero: the abscissa is mapped by x |-> A + x or A - x. *)
Lemma reach0 : forall l : list (bool * pt), exists e A : F, (e = 1 \/ e = fopp 1) /\ forall p, exists ss, length ss = length l /\ fst (walk (combine l ss) p) = A + e * fst p.
Proof.
  induction l as [|[b g] l IH].
  - exists 1, 0. split; [now left|]. intros p. exists []. split; [reflexivity|]. cbn. ring.
  - destruct IH as [e [A [He H]]]. destruct b.
    + exists (fopp e), (A - e * fst g). split; [destruct He as [-> | ->]; [now right|left; ring]|]. intros p.
      destruct (H (plus_slope 0 p g)) as [ss [L E]]. exists (0 :: ss). split; [cbn; lia|]. cbn [combine walk]. rewrite E. unfold plus_slope. cbn [fst]. ring.
    + exists e, A. split; [exact He|]. intros p. destruct (H p) as [ss [L E]]. exists (0 :: ss). split; [cbn; lia|]. exact E.
Qed.
(** One set bit: a square is added as well. *)
Lemma reach1 : forall l : list (bool * pt), (1 <= wt l)%nat -> exists e A : F, (e = 1 \/ e = fopp 1) /\ forall p s, exists ss, length ss = length l /\ fst (walk (combine l ss) p) = A + e * (s * s - fst p).
Proof.
  induction l as [|[b g] l IH]; intros W; [cbn in W; lia|]. destruct b.
  - destruct (reach0 l) as [e [A [He H]]]. exists e, (A - e * fst g). split; [exact He|]. intros p s.
    destruct (H (plus_slope s p g)) as [ss [L E]]. exists (s :: ss). split; [cbn; lia|]. cbn [combine walk]. rewrite E. unfold plus_slope. cbn [fst]. ring.
  - destruct (IH W) as [e [A [He H]]]. exists e, A. split; [exact He|]. intros p s. destruct (H p s) as [ss [L E]]. exists (0 :: ss). split; [cbn; lia|]. exact E.
Qed.
(** Two set bits: every abscissa is reached. *)
Lemma reach2 : 1 + 1 <> (0 : F) -> forall l : list (bool * pt), (2 <= wt l)%nat -> forall p X, exists ss, length ss = length l /\ fst (walk (combine l ss) p) = X.
Proof.
  intros H2. induction l as [|[b g] l IH]; intros W p X; [cbn in W; lia|]. destruct b.
  - destruct (reach1 l ltac:(cbn in W; unfold wt in *; lia)) as [e [A [He H]]].
    set (q := e * (X - A) - fst p - fst g). destruct (H (plus_slope ((q - 1) / (1 + 1)) p g) ((q + 1) / (1 + 1))) as [ss [L E]].
    exists ((q - 1) / (1 + 1) :: ss). split; [cbn; lia|]. cbn [combine walk]. rewrite E. unfold plus_slope. cbn [fst].
    transitivity (A + e * (q + fst p + fst g)); [field; exact H2|]. unfold q. destruct He as [-> | ->]; ring.
  - destruct (IH W p X) as [ss [L E]]. exists (0 :: ss). split; [cbn; lia|]. exact E.
Qed.
(** The last set bit. *)
Lemma split_last : forall l : list (bool * pt), (1 <= wt l)%nat -> exists l1 g l2, l = l1 ++ (true, g) :: l2 /\ wt l2 = 0%nat /\ wt l = S (wt l1).
Proof.
  induction l as [|[b g] l IH]; intros W; [cbn in W; lia|]. destruct (Nat.eq_dec (wt l) 0) as [Z|Z].
  - destruct b; [|cbn in W; unfold wt in *; cbn in W; lia]. exists [], g, l. unfold wt in *. cbn. rewrite Z. auto.
  - destruct IH as [l1 [g' [l2 [E [Z2 W1]]]]]; [lia|]. exists ((b, g) :: l1), g', l2. rewrite E. split; [reflexivity|]. split; [exact Z2|]. rewrite E in W1. unfold wt in *. cbn. destruct b; cbn; lia.
Qed.
Lemma forge : 1 + 1 <> (0 : F) -> forall (l : list (bool * pt)) d x y, (3 <= wt l)%nat -> exists ss t, length ss = length l /\ plus_slope t (x, y) d = walk (combine l ss) d.
Proof.
  intros H2 l d x y W. destruct (split_last l ltac:(lia)) as [l1 [g [l2 [E [Z2 W1]]]]].
  assert (T : exists t, t * t - x - fst d <> fst g).
  { destruct (f_dec (0 * 0 - x - fst d) (fst g)) as [Q|Q]; [|now exists 0]. exists 1. intros R. rewrite <- Q in R. apply (f1_neq_0 F). transitivity ((1 * 1 - x - fst d) - (0 * 0 - x - fst d)); [ring|rewrite R; ring]. }
  destruct T as [t T]. set (X := t * t - x - fst d) in *. set (s := (t * (fst d - X) - snd d + snd g) / (fst g - X)).
  assert (N : fst g - X <> 0) by (intros Q; apply (proj1 (fsub_0 F _ _)) in Q; congruence).
  destruct (reach2 H2 l1 ltac:(lia) d (s * s - X - fst g)) as [ss [L P]].
  exists (ss ++ s :: repeat 0 (length l2)), t. split; [subst l; rewrite !app_length; cbn; rewrite repeat_length; lia|].
  subst l. rewrite walk_app by exact L. cbn [combine walk]. rewrite walk_id by exact Z2. unfold plus_slope. cbn [fst snd]. rewrite P. fold X.
  assert (XX : s * s - (s * s - X - fst g) - fst g = X) by ring. rewrite XX. f_equal. unfold s. field. exact N.
Qed.
Theorem forgery d pts x y bs : 1 + 1 <> (0 : F) -> length bs = length pts -> (3 <= weight bs)%nat -> accepts (F := F) d pts x y (fofZ (bits_val bs)).
Proof.
  intros H2 L W. apply accepts_iff. destruct (forge H2 (combine bs pts) d x y) as [ss [t [Ls E]]]; [now rewrite wt_combine|].
  exists bs, ss, t. rewrite combine_length, L, Nat.min_id in Ls. auto.
Qed.

(** ** The prover *)
Lemma chord_plus l r s p : chord (F := F) l r = Ok (s, p) -> s * s = fst l + fst r + fst p /\ s * (fst r - fst p) = snd r + snd p.
Proof.
  unfold chord. destruct (feqb_spec (fst l - fst r) 0) as [E|N]; [discriminate|]. intros H. apply Ok_inj in H. injection H as <- <-. cbn [fst snd].
  set (s := (snd l - snd r) * finv (fst l - fst r)). assert (S : s * (fst l - fst r) = snd l - snd r) by (unfold s; field; exact N). split; [ring|].
  transitivity (s * (fst l - (s * s - fst l - fst r)) - s * (fst l - fst r)); [ring|rewrite S; ring].
Qed.
Lemma add_points_honest : forall (pts : list pt) bs bv cv (c : cs) (p : pt), length bv = length pts -> length bs = length pts -> good c -> wfp (nv c) cv -> Forall (fun v => (v < nv c)%nat) bv ->
  sat c (wval c) -> map (wval c) bv = map b2f bs -> at_ (wval c) cv = p ->
  match prover_walk (combine bs pts) p with
  | Ok q => exists cv' c', add_points (combine (combine (map Some bs) bv) pts) (Some p) cv c = Ok (Some q, cv', c') /\
      good c' /\ ext c c' /\ wfp (nv c') cv' /\ sat c' (wval c') /\ at_ (wval c') cv' = q
  | _ => add_points (combine (combine (map Some bs) bv) pts) (Some p) cv c = Panic
  end.
Proof.
  induction pts as [|g pts IH]; intros bs bv cv c p L Lb G W B Sc Eb Ep.
  - destruct bv, bs; try discriminate. cbn. exists cv, c. conj; auto using ext_refl; apply W.
  - destruct bv as [|v bv]; [discriminate|]. destruct bs as [|b bs]; [discriminate|]. cbn [map combine prover_walk add_points]. rewrite add_eq.
    destruct (chord p g) as [[s q]| |] eqn:Ec; cbn [rmap bind]; [|unfold chord in Ec; destruct (feqb _ _); discriminate|reflexivity].
    destruct (chord_plus p g s q Ec) as [C1 C2]. cbn [ov fst snd option_map].
    inversion B as [|? ? B1 B2]; subst. cbn [map] in Eb. injection Eb as Eb1 Eb2.
    destruct (add_core_ok s q cv g c G (proj1 W)) as [R1 [G1 [E1 [N1 [_ [U0 [U1 [U2 T1]]]]]]]].
    specialize (T1 Sc C1 C2). destruct (add_core s q cv g c) as [nx c1]. cbn [fst snd] in *. subst nx. rewrite select_eq. cbv zeta.
    assert (W1 : wfp (nv c1) (mkPvar (1 + nv c) (2 + nv c))) by (split; cbn; lia).
    assert (W2 : wfp (nv c1) cv) by (destruct W; split; lia).
    set (sv := if b then q else at_ (wval c) cv).
    assert (Q : (match Some b with Some true => Some q | Some false => Some (at_ (wval c) cv) | None => None end) = Some sv) by (unfold sv; now destruct b).
    rewrite Q. cbn [ov snd].
    destruct (select_core_ok sv v (mkPvar (1 + nv c) (2 + nv c)) cv c1 G1 ltac:(lia) W1 W2) as [R2 [G2 [E2 [N2 [_ [Y0 [Y1 T2]]]]]]].
    assert (Hb : wval c1 v = b2f b) by (rewrite (proj2 E1) by exact B1; exact Eb1).
    cbn [px py] in T2. rewrite Hb, U1, U2, !(proj2 E1) in T2 by apply W. rewrite !sel in T2.
    specialize (T2 T1 ltac:(unfold sv; now destruct b) ltac:(unfold sv; now destruct b)).
    destruct (select_core sv v (mkPvar (1 + nv c) (2 + nv c)) cv c1) as [cv2 c2]. cbn [fst snd] in *. subst cv2.
    specialize (IH bs bv (mkPvar (nv c1) (1 + nv c1)) c2 sv ltac:(cbn in L; lia) ltac:(cbn in Lb; lia) G2 ltac:(split; cbn; lia) ltac:(revert B2; apply Forall_impl; intros; lia) T2).
    assert (Em : map (wval c2) bv = map b2f bs). { rewrite <- Eb2. apply map_ext_in. intros u Hu. rewrite Forall_forall in B2. specialize (B2 u Hu). rewrite (proj2 E2), (proj2 E1) by lia. reflexivity. }
    specialize (IH Em). unfold at_ at 1 in IH. cbn [px py] in IH. rewrite Y0, Y1 in IH. specialize (IH ltac:(now destruct sv)). fold sv.
    destruct (prover_walk (combine bs pts) sv) as [r| |]; auto. destruct IH as [cv' [c' [K1 [K2 [K3 [K4 [K5 K6]]]]]]]. exists cv', c'. conj; auto.
    eapply ext_trans; [exact E1|]. eapply ext_trans; eauto.
Qed.
Lemma bits_le_S n z : bits_le (S n) z = Z.odd z :: bits_le n (Z.div2 z).
Proof.
  unfold bits_le. cbn [seq map]. rewrite Z.bit0_odd. f_equal. rewrite <- seq_shift, map_map. apply map_ext. intros i. rewrite Z.div2_spec, Z.shiftr_spec by lia. f_equal. lia.
Qed.
Lemma bits_le_val : forall n z, (0 <= z < 2 ^ Z.of_nat n)%Z -> bits_val (bits_le n z) = z.
Proof.
  induction n as [|n IH]; intros z H; [cbn in *; lia|]. rewrite bits_le_S. cbn [bits_val]. rewrite Nat2Z.inj_succ, Z.pow_succ_r in H by lia.
  rewrite IH; [|rewrite Z.div2_div; split; [apply Z.div_pos; lia|apply Z.div_lt_upper_bound; lia]].
  rewrite (Z.div2_odd z) at 3. destruct (Z.odd z); cbn [Z.b2z]; lia.
Qed.
Lemma bits_le_len n z : length (bits_le n z) = n. Proof. unfold bits_le. now rewrite map_length, seq_length. Qed.

(** The honest prover's system is satisfied by its own values, provided its chords exist and lead to the same point. *)
Lemma prover_ok d pts pk (k : F) q r : (toZ k < 2 ^ Z.of_nat (length pts))%Z ->
  prover_walk (combine (bits_le (length pts) (toZ k)) pts) d = Ok q -> chord pk d = Ok r -> snd r = q ->
  exists c, prover_system d pts pk k = Ok c /\ sat c (wval c) /\ wval c 0%nat = fst pk /\ wval c 1%nat = snd pk /\ wval c 2%nat = k.
Proof.
  intros Hk Hw Hc Hq. unfold prover_system. rewrite system_eq. cbn [option_map ov fst snd].
  destruct (start3_ok (fst pk) (snd pk) k) as [G [N [Sa [Vx [Vy Vk]]]]]. set (c := start3 (fst pk) (snd pk) k) in *. clearbody c. rewrite gadget_eq. cbv zeta. cbn [option_map bits_of fst].
  set (bs := bits_le (length pts) (toZ k)) in *. assert (Lb : length bs = length pts) by apply bits_le_len.
  assert (Ek : k = fofZ (bits_val bs)). { unfold bs. rewrite bits_le_val; [symmetry; apply (fofZ_toZ F)|]. pose proof (toZ_range F k). lia. }
  clearbody bs.
  destruct (prefix_ok d 2 (Some d) (map Some bs) c G ltac:(lia)) as [L1 [B1 [G1 [E1 [W1 [_ [_ H1]]]]]]].
  destruct (H1 bs eq_refl eq_refl (Sa _) ltac:(now rewrite Vk)) as [Sc1 [Hd Eb]]. clear H1.
  destruct (prefix d 2 (Some d) (map Some bs) c) as [bv c1]. cbn [fst snd] in *. rewrite map_length in L1.
  pose proof (add_points_honest pts bs bv (mkPvar (nv c) (1 + nv c)) c1 d ltac:(lia) Lb G1 W1 B1 Sc1 Eb Hd) as H2. rewrite Hw in H2.
  destruct H2 as [cv' [c2 [Q2 [G2 [E2 [W2 [Sc2 A2]]]]]]]. rewrite Q2. cbn [bind]. rewrite add_eq, Hc. cbn [rmap bind ov fst snd option_map].
  destruct r as [s p]. cbn [fst snd] in *. subst p. destruct (chord_plus pk d s q Hc) as [C1 C2].
  assert (L2 : (px (mkPvar 0 1) < nv c2)%nat) by (cbn; destruct E1, E2; lia).
  assert (Lc : (nv c <= nv c1 <= nv c2)%nat) by (destruct E1, E2; lia).
  assert (K0 : forall i, (i < nv c)%nat -> wval c2 i = wval c i) by (intros i Hi; rewrite (proj2 E2), (proj2 E1) by lia; reflexivity).
  destruct (add_core_ok s q (mkPvar 0 1) d c2 G2 L2) as [R3 [G3 [E3 [N3 [_ [U0 [U1 [U2 T3]]]]]]]].
  cbn [px] in T3. rewrite K0, Vx in T3 by lia. specialize (T3 Sc2 C1 C2).
  destruct (add_core s q (mkPvar 0 1) d c2) as [rv c3]. cbn [fst snd] in *. subst rv. eexists. split; [reflexivity|]. cbn [px py].
  set (c4 := constrain _ c3). set (c5 := constrain _ c4). change (wval c5) with (wval c3).
  conj; [|rewrite (proj2 E3), K0 by lia; exact Vx|rewrite (proj2 E3), K0 by lia; exact Vy|rewrite (proj2 E3), K0 by lia; exact Vk].
  unfold c5, c4. rewrite !sat_constrain, !leval_sub, !leval_var, U1, U2, !(proj2 E3) by apply W2. rewrite <- A2. cbn [at_ fst snd]. conj; auto; ring.
Qed.
Lemma prover_panics d pts pk (k : F) : (toZ k < 2 ^ Z.of_nat (length pts))%Z ->
  match prover_walk (combine (bits_le (length pts) (toZ k)) pts) d with Ok _ => chord pk d = Panic | _ => True end -> prover_system d pts pk k = Panic.
Proof.
  intros Hk Hw. unfold prover_system. rewrite system_eq. cbn [option_map ov fst snd].
  destruct (start3_ok (fst pk) (snd pk) k) as [G [N [Sa [Vx [Vy Vk]]]]]. set (c := start3 (fst pk) (snd pk) k) in *. clearbody c. rewrite gadget_eq. cbv zeta. cbn [option_map bits_of fst].
  set (bs := bits_le (length pts) (toZ k)) in *. assert (Lb : length bs = length pts) by apply bits_le_len.
  assert (Ek : k = fofZ (bits_val bs)). { unfold bs. rewrite bits_le_val; [symmetry; apply (fofZ_toZ F)|]. pose proof (toZ_range F k). lia. }
  clearbody bs.
  destruct (prefix_ok d 2 (Some d) (map Some bs) c G ltac:(lia)) as [L1 [B1 [G1 [E1 [W1 [_ [_ H1]]]]]]].
  destruct (H1 bs eq_refl eq_refl (Sa _) ltac:(now rewrite Vk)) as [Sc1 [Hd Eb]]. clear H1.
  destruct (prefix d 2 (Some d) (map Some bs) c) as [bv c1]. cbn [fst snd] in *. rewrite map_length in L1.
  pose proof (add_points_honest pts bs bv (mkPvar (nv c) (1 + nv c)) c1 d ltac:(lia) Lb G1 W1 B1 Sc1 Eb Hd) as H2.
  destruct (prover_walk (combine bs pts) d) as [q| |]; [|now rewrite H2|now rewrite H2].
  destruct H2 as [cv' [c2 [Q2 _]]]. rewrite Q2. cbn [bind]. rewrite add_eq, Hw. reflexivity.
Qed.

(** ** Both sides build the same system *)
Lemma shape_cases (c c' : cs) : same_shape c c' -> exists n w w' l m d x, c = mkCs n w l m d x /\ c' = mkCs n w' l m d x.
Proof. destruct c, c'. unfold same_shape. cbn. intros [-> [-> [-> [-> ->]]]]. repeat eexists. Qed.
Lemma shape_refl (c : cs) : same_shape c c. Proof. repeat split. Qed.
Lemma shape_constrain a (c c' : cs) : same_shape c c' -> same_shape (constrain a c) (constrain a c').
Proof. intros S. destruct (shape_cases _ _ S) as [n [w [w' [l [m [d [x [-> ->]]]]]]]]. repeat split. Qed.
Lemma shape_add s s' p p' lv right (c c' : cs) : same_shape c c' ->
  fst (add_core s p lv right c) = fst (add_core s' p' lv right c') /\ same_shape (snd (add_core s p lv right c)) (snd (add_core s' p' lv right c')).
Proof. intros S. destruct (shape_cases _ _ S) as [n [w [w' [l [m [d [x [-> ->]]]]]]]]. unfold same_shape. cbn. repeat split. Qed.
Lemma shape_select p p' bv yv nov (c c' : cs) : same_shape c c' ->
  fst (select_core p bv yv nov c) = fst (select_core p' bv yv nov c') /\ same_shape (snd (select_core p bv yv nov c)) (snd (select_core p' bv yv nov c')).
Proof. intros S. destruct (shape_cases _ _ S) as [n [w [w' [l [m [d [x [-> ->]]]]]]]]. unfold same_shape. cbn. repeat split. Qed.
Lemma shape_bits : forall b b' (c c' : cs), length b = length b' -> same_shape c c' ->
  fst (alloc_bits b c) = fst (alloc_bits b' c') /\ same_shape (snd (alloc_bits b c)) (snd (alloc_bits b' c')).
Proof.
  induction b as [|o b IH]; intros [|o' b'] c c' L S; try discriminate; [now split|]. cbn [alloc_bits].
  assert (H : fst (alloc_bit o c) = fst (alloc_bit o' c') /\ same_shape (snd (alloc_bit o c)) (snd (alloc_bit o' c'))).
  { destruct (shape_cases _ _ S) as [n [w [w' [l [m [d [x [-> ->]]]]]]]]. unfold same_shape, alloc_bit. destruct (match o with Some true => _ | _ => _ end), (match o' with Some true => _ | _ => _ end). cbn. repeat split. }
  destruct (alloc_bit o c) as [v c1], (alloc_bit o' c') as [v' c1']. cbn [fst snd] in H. destruct H as [<- S1].
  destruct (IH b' c1 c1' ltac:(cbn in L; lia) S1) as [H2 S2]. destruct (alloc_bits b c1) as [r c2], (alloc_bits b' c1') as [r' c2']. cbn [fst snd] in *. now subst r'.
Qed.
Lemma shape_prefix d sk cur cur' b b' (c c' : cs) : length b = length b' -> same_shape c c' ->
  fst (prefix d sk cur b c) = fst (prefix d sk cur' b' c') /\ same_shape (snd (prefix d sk cur b c)) (snd (prefix d sk cur' b' c')).
Proof.
  intros L S. unfold prefix.
  assert (H : fst (allocate_point cur c) = fst (allocate_point cur' c') /\ same_shape (snd (allocate_point cur c)) (snd (allocate_point cur' c'))).
  { destruct (shape_cases _ _ S) as [n [w [w' [l [m [e [x [-> ->]]]]]]]]. unfold same_shape. cbn. repeat split. }
  destruct (allocate_point cur c) as [v c1], (allocate_point cur' c') as [v' c1']. cbn [fst snd] in H. destruct H as [<- S1].
  match goal with |- context [alloc_bits b ?x] => set (e := x) end. match goal with |- context [alloc_bits b' ?x] => set (e' := x) end.
  assert (S2 : same_shape e e') by now repeat apply shape_constrain. destruct (shape_bits b b' e e' L S2) as [H3 S3].
  destruct (alloc_bits b e) as [r c2], (alloc_bits b' e') as [r' c2']. cbn [fst snd] in *. subst r'. split; [reflexivity|now apply shape_constrain].
Qed.
Lemma shape_points : forall (pts : list pt) b b' bv cur cur' cv (c c' : cs), length b = length b' -> same_shape c c' ->
  match add_points (combine (combine b bv) pts) cur cv c, add_points (combine (combine b' bv) pts) cur' cv c' with
  | Ok (_, v, e), Ok (_, v', e') => v = v' /\ same_shape e e' | _, _ => True end.
Proof.
  induction pts as [|g pts IH]; intros b b' bv cur cur' cv c c' L S.
  - destruct (combine b bv), (combine b' bv); cbn; auto.
  - destruct b as [|o b], b' as [|o' b']; try discriminate; [cbn; auto|]. destruct bv as [|v bv]; [cbn; auto|]. cbn [combine add_points]. rewrite !add_eq.
    destruct (match cur with Some l => _ | None => _ end) as [u| |]; cbn [bind]; [|exact I|exact I].
    destruct (match cur' with Some l => rmap Some (chord l g) | None => _ end) as [u'| |]; cbn [bind].
    2, 3: match goal with |- match ?x with _ => _ end => destruct x as [[[? ?] ?]| |]; exact I end.
    destruct (shape_add (fst (ov (0, (0, 0)) u)) (fst (ov (0, (0, 0)) u')) (snd (ov (0, (0, 0)) u)) (snd (ov (0, (0, 0)) u')) cv g c c' S) as [H1 S1].
    cbv zeta. rewrite !select_eq. cbv zeta. rewrite H1.
    set (y := match o with Some true => _ | _ => _ end). set (y' := match o' with Some true => _ | _ => _ end).
    destruct (shape_select (ov (0, 0) y) (ov (0, 0) y') v (fst (add_core (fst (ov (0, (0, 0)) u')) (snd (ov (0, (0, 0)) u')) cv g c')) cv _ _ S1) as [H2 S2].
    rewrite H2. apply IH; [cbn in L; lia|exact S2].
Qed.
Lemma shape_system d pts pk k : match prover_system (F := F) d pts pk k, verifier_system d pts with Ok c, Ok c' => same_shape c c' | _, _ => True end.
Proof.
  unfold prover_system, verifier_system. rewrite !system_eq, !gadget_eq. cbv zeta. cbn [option_map ov fst snd bits_of].
  set (c := start3 _ _ k). set (c' := start3 0 0 0). assert (S : same_shape c c') by repeat split. assert (N : nv c = nv c') by apply S. rewrite N. clearbody c c'. clear N.
  destruct (shape_prefix d 2 (Some d) None (map Some (bits_le (length pts) (toZ k))) (repeat None (length pts)) c c' ltac:(now rewrite map_length, bits_le_len, repeat_length) S) as [H1 S1]. rewrite H1.
  pose proof (shape_points pts (map Some (bits_le (length pts) (toZ k))) (repeat None (length pts)) (fst (prefix d 2 None (repeat None (length pts)) c')) (Some d) None (mkPvar (nv c') (1 + nv c')) _ _ ltac:(now rewrite map_length, bits_le_len, repeat_length) S1) as H2.
  match goal with |- match bind ?x _ with _ => _ end => destruct x as [[[a v] e]| |]; cbn [bind]; [|exact I|exact I] end.
  match goal with |- context [bind (add_points ?x ?y ?z ?u) _] => destruct (add_points x y z u) as [[[a' v'] e']| |]; cbn [bind] end.
  2, 3: match goal with |- match ?x with _ => _ end => destruct x; exact I end.
  destruct H2 as [<- S2]. rewrite !add_eq. destruct (rmap Some (chord pk d)) as [u| |]; cbn [bind]; [|exact I|exact I].
  match goal with |- context [add_core ?s ?p ?lv ?g e] => destruct (shape_add s (fst (ov (0, (0, 0)) (@None (F * pt)))) p (snd (ov (0, (0, 0)) (@None (F * pt)))) lv g e e' S2) as [H3 S3] end.
  rewrite H3. now repeat apply shape_constrain.
Qed.

Lemma verifier_ok d pts : exists c, verifier_system (F := F) d pts = Ok c.
Proof.
  unfold verifier_system. rewrite system_eq. cbn [option_map ov].
  destruct (start3_ok 0 0 0) as [G [N [Sa _]]]. set (c := start3 0 0 0) in *. clearbody c. rewrite gadget_eq. cbv zeta. cbn [option_map bits_of].
  destruct (prefix_ok d 2 None (repeat None (length pts)) c G ltac:(lia)) as [L1 [B1 [G1 [E1 [W1 _]]]]].
  destruct (prefix d 2 None (repeat None (length pts)) c) as [bv c1]. cbn [fst snd] in *. rewrite repeat_length in *.
  destruct (add_points_ok pts bv (mkPvar (nv c) (1 + nv c)) c1 L1 G1 W1 B1) as [cv' [c2 [Q2 _]]]. rewrite Q2. cbn [bind]. rewrite add_eq. cbn [bind]. eexists. reflexivity.
Qed.
Lemma same_shape_sat (c c' : cs) w : same_shape c c' -> sat c w -> sat c' w.
Proof. intros S. destruct (shape_cases _ _ S) as [n [u [u' [l [m [d [x [-> ->]]]]]]]]. auto. Qed.
End Exact.

(** ** The prover's points *)
Section Group.
Context {F : PField} {K : Field} {M : Mod K} (C : Curve F K M).
Add Field Fsg : (f_th F).
Add Field Ksg : (f_th K).
Notation "a +: b" := (madd a b) (at level 50, left associativity).
Notation table := (table C).
Lemma mulZ_1 (a : M) : mulZ 1 a = a. Proof. apply smul_1. Qed.
Lemma mulZ_0 (a : M) : mulZ 0 a = m0. Proof. apply smul_0l. Qed.
Lemma mulZ_add x y (a : M) : mulZ (x + y) a = mulZ x a +: mulZ y a. Proof. unfold mulZ. now rewrite (fofZ_add K), smul_addl. Qed.
Lemma mulZ_mul x y (a : M) : mulZ (x * y) a = mulZ x (mulZ y a). Proof. unfold mulZ. now rewrite (fofZ_mul K), smul_smul. Qed.
Lemma table_tl G g pts : table G (g :: pts) -> xy C G = Some g /\ table (mulZ 2 G) pts.
Proof.
  intros T. split; [rewrite <- (mulZ_1 G); exact (T 0%nat g eq_refl)|]. intros i p H. specialize (T (S i) p H). rewrite Nat2Z.inj_succ, Z.pow_succ_r, Z.mul_comm in T by lia. now rewrite mulZ_mul in T.
Qed.
Lemma same_abscissa a b x y y' : xy C a = Some (x, y) -> xy C b = Some (x, y') -> a = b \/ a = mopp b.
Proof.
  intros A B. pose proof (xy_curve _ _ _ C a _ _ A) as Ca. pose proof (xy_curve _ _ _ C b _ _ B) as Cb.
  assert (H : (y - y') * (y + y') = 0) by (transitivity (y * y - y' * y'); [ring|rewrite Ca, Cb; ring]).
  apply (fmul_0 F) in H. destruct H as [H|H].
  - left. apply (proj1 (fsub_0 F _ _)) in H. subst y'. apply (xy_inj _ _ _ C). congruence.
  - right. apply (xy_inj _ _ _ C). rewrite (xy_neg _ _ _ C b x y' B), A. do 2 f_equal. transitivity (y + y' - y'); [ring|rewrite H; ring].
Qed.
Lemma chord_ok a b p q : xy C a = Some p -> xy C b = Some q -> a <> b -> a <> mopp b -> exists s r, chord p q = Ok (s, r) /\ xy C (a +: b) = Some r.
Proof.
  intros A B N1 N2. destruct p as [x y], q as [x' y']. assert (N : x <> x') by (intros <-; destruct (same_abscissa a b x y y' A B); contradiction).
  unfold chord. cbn [fst snd]. destruct (feqb_spec (x - x') 0) as [E|E]; [apply (proj1 (fsub_0 F _ _)) in E; contradiction|]. do 2 eexists. split; [reflexivity|].
  pose proof (xy_chord _ _ _ C a b x y x' y' A B N) as H. cbv zeta in H. rewrite H. assert (N' : x' - x <> 0) by (intros Q; apply (proj1 (fsub_0 F _ _)) in Q; congruence).
  assert (S : (y' - y) / (x' - x) = (y - y') * finv (x - x')) by (field; auto). rewrite S. reflexivity.
Qed.
Lemma chord_panics a b p q : xy C a = Some p -> xy C b = Some q -> a = b \/ a = mopp b -> chord p q = Panic.
Proof.
  intros A B H. destruct p as [x y], q as [x' y']. assert (E : x = x').
  { destruct H as [<- | ->]; [congruence|]. rewrite (xy_neg _ _ _ C b x' y' B) in A. congruence. }
  unfold chord. cbn [fst]. destruct (feqb_spec (x - x') 0) as [_|N]; [reflexivity|]. exfalso. apply N. subst. ring.
Qed.
Lemma collides_0 (G a : M) z : collides G a z 0 <-> a = G \/ a = mopp G.
Proof. unfold collides. cbn [Z.of_nat]. rewrite Z.mod_1_r, mulZ_0, mulZ_1, madd_0_r. tauto. Qed.
Lemma mod_step z i : (z mod 2 ^ Z.of_nat (S i) = (if Z.odd z then 1 else 0) + (Z.div2 z mod 2 ^ Z.of_nat i) * 2)%Z.
Proof.
  rewrite Nat2Z.inj_succ, Z.pow_succ_r by lia. assert (P : (0 < 2 ^ Z.of_nat i)%Z) by lia.
  pose proof (Z.div2_odd z) as E. set (o := Z.odd z) in *. set (h := Z.div2 z) in *. assert (B : (0 <= Z.b2z o <= 1)%Z) by (destruct o; cbn; lia).
  pose proof (Z.div_mod h (2 ^ Z.of_nat i) ltac:(lia)) as D. pose proof (Z.mod_pos_bound h (2 ^ Z.of_nat i) P) as Mb.
  symmetry. apply (Z.mod_unique_pos _ _ (h / 2 ^ Z.of_nat i)); destruct o; cbn [Z.b2z] in *; nia.
Qed.
Lemma collides_S (G a : M) z i : collides G a z (S i) <-> collides (mulZ 2 G) (if Z.odd z then a +: G else a) (Z.div2 z) i.
Proof.
  unfold collides. rewrite mod_step. rewrite <- !mulZ_mul. replace (2 ^ Z.of_nat (S i))%Z with (2 ^ Z.of_nat i * 2)%Z by (rewrite Nat2Z.inj_succ, Z.pow_succ_r by lia; ring).
  assert (E : a +: mulZ ((if Z.odd z then 1 else 0) + Z.div2 z mod 2 ^ Z.of_nat i * 2) G = (if Z.odd z then a +: G else a) +: mulZ (Z.div2 z mod 2 ^ Z.of_nat i * 2) G).
  { rewrite mulZ_add. destruct (Z.odd z); [rewrite mulZ_1; apply madd_assoc|]. now rewrite mulZ_0, madd_0. }
  rewrite E. tauto.
Qed.
Lemma div2_bound z n : (0 <= z < 2 ^ Z.of_nat (S n))%Z -> (0 <= Z.div2 z < 2 ^ Z.of_nat n)%Z.
Proof. rewrite Nat2Z.inj_succ, Z.pow_succ_r by lia. intros H. rewrite Z.div2_div. split; [apply Z.div_pos; lia|apply Z.div_lt_upper_bound; lia]. Qed.
Lemma walk_ok : forall pts G a p z, table G pts -> xy C a = Some p -> (0 <= z < 2 ^ Z.of_nat (length pts))%Z -> (forall i, (i < length pts)%nat -> ~ collides G a z i) ->
  exists q, prover_walk (combine (bits_le (length pts) z) pts) p = Ok q /\ xy C (a +: mulZ z G) = Some q.
Proof.
  induction pts as [|g pts IH]; intros G a p z T A Z H.
  - exists p. cbn in Z. replace z with 0%Z by lia. rewrite mulZ_0, madd_0_r. now split.
  - cbn [length]. rewrite bits_le_S. cbn [combine prover_walk]. destruct (table_tl _ _ _ T) as [Tg T'].
    pose proof (H 0%nat ltac:(cbn; lia)) as H0. rewrite collides_0 in H0.
    destruct (chord_ok a G p g A Tg ltac:(tauto) ltac:(tauto)) as [s [r [E R]]]. rewrite E. cbn [bind snd].
    destruct (IH (mulZ 2 G) (if Z.odd z then a +: G else a) (if Z.odd z then r else p) (Z.div2 z) T' ltac:(now destruct (Z.odd z)) (div2_bound _ _ Z)) as [q [Q1 Q2]].
    { intros i Hi. rewrite <- collides_S. apply H. cbn. lia. }
    exists q. split; [exact Q1|]. rewrite <- Q2. f_equal. rewrite (Z.div2_odd z) at 1. rewrite <- mulZ_mul, Z.mul_comm, Z.add_comm, mulZ_add. destruct (Z.odd z); cbn [Z.b2z]; [now rewrite mulZ_1, madd_assoc|now rewrite mulZ_0, madd_0].
Qed.
Lemma walk_panics : forall pts G a p z i, table G pts -> xy C a = Some p -> (i < length pts)%nat -> collides G a z i ->
  match prover_walk (combine (bits_le (length pts) z) pts) p with Ok _ => False | _ => True end.
Proof.
  induction pts as [|g pts IH]; intros G a p z i T A Hi H; [cbn in Hi; lia|].
  cbn [length]. rewrite bits_le_S. cbn [combine prover_walk]. destruct (table_tl _ _ _ T) as [Tg T'].
  assert (Dc : (a = G \/ a = mopp G) \/ (a <> G /\ a <> mopp G)) by (destruct (m_dec a G), (m_dec a (mopp G)); tauto).
  destruct Dc as [Dc|[D1 D2]]; [now rewrite (chord_panics a G p g A Tg Dc)|].
  destruct (chord_ok a G p g A Tg D1 D2) as [s [r [E R]]]. rewrite E. cbn [bind snd].
  destruct i as [|i]; [apply collides_0 in H; tauto|]. apply collides_S in H.
  apply (IH (mulZ 2 G) (if Z.odd z then a +: G else a) (if Z.odd z then r else p) (Z.div2 z) i T' ltac:(now destruct (Z.odd z)) ltac:(cbn in Hi; lia) H).
Qed.
End Group.
