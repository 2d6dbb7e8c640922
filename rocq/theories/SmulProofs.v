(** Proofs about the scalar-multiplication constraints. *)
From Coq Require Import List Arith NArith ZArith Bool Lia Field Ring.
From Verif Require Import Base Field PField CmixModel CmixSpec CmixProofs CmixSystem SmulModel SmulSpec.
Import ListNotations.
Local Open Scope F_scope.

Section Proofs.
Context {F : PField}.
Add Field Fsm : (f_th F).
Ltac conj := repeat match goal with |- _ /\ _ => split end.
Notation cs := (cs F).
Notation pt := (pt F).

Definition over (n : nat) (w : nat -> F) (l : list F) : nat -> F := fun i => if (i <? n)%nat then w i else nth (i - n) l 0.
Lemma over_lt n w l i : (i < n)%nat -> over n w l i = w i.
Proof. intros H. unfold over. now rewrite (proj2 (Nat.ltb_lt i n) H). Qed.
Lemma over_ge n w l j : over n w l (j + n) = nth j l 0.
Proof. unfold over. destruct (Nat.ltb_spec (j + n) n); [lia|]. f_equal. lia. Qed.
Lemma over_agree n w l : agree n w (over n w l). Proof. intros i H. now rewrite over_lt. Qed.

Lemma alloc_ok (x : F) c : good c ->
  let c' := snd (allocate x c) in
  good c' /\ ext c c' /\ nv c' = S (nv c) /\ (forall w, sat c' w <-> sat c w) /\ wval c' (nv c) = x.
Proof.
  intros G. cbn. set (c' := mkCs _ _ _ _ _ _). conj.
  - apply (good_grow c); auto; cbn; [lia|rewrite app_length, (g_wit c G); cbn; lia|]. generalize (g_mul c G). apply Forall_impl. intros m. apply wf_mul_le. cbn. lia.
  - apply (ext_grow c c' [x]); auto; cbn; lia.
  - reflexivity.
  - reflexivity.
  - unfold wval. cbn. rewrite app_nth2; rewrite (g_wit c G); [|lia]. now rewrite Nat.sub_diag.
Qed.

(** The additions without the values. *)
Definition add_core (s : F) (p : pt) (lv : pvar) (right : pt) (c : cs) : pvar * cs :=
  let (s, c1) := allocate s c in
  let (x, c2) := allocate (fst p) c1 in
  let (y, c2) := allocate (snd p) c2 in
  let '(_, _, sq, c3) := multiply (lvar s) (lvar s) c2 in
  let '(_, _, sd, c4) := multiply (lvar s) (lsub (lconst (fst right)) (lvar x)) c3 in
  let c5 := constrain (lsub (lsub (lsub (lvar sq) (lvar (px lv))) (lconst (fst right))) (lvar x)) c4 in
  let c6 := constrain (lsub (lsub (lvar sd) (lconst (snd right))) (lvar y)) c5 in
  (mkPvar x y, c6).
Definition ov {A} (d : A) (v : option A) : A := match v with Some v => v | None => d end.
Lemma add_eq lv left right c : point_add_constant lv left right c =
  bind (match left with Some l => rmap Some (chord l right) | None => Ok None end) (fun v =>
    let r := add_core (fst (ov (0, (0, 0)) v)) (snd (ov (0, (0, 0)) v)) lv right c in Ok (option_map snd v, fst r, snd r)).
Proof.
  unfold point_add_constant. destruct left as [l|].
  - destruct (chord l right) as [[s [x y]]| |]; reflexivity.
  - reflexivity.
Qed.

Lemma add_core_ok s p lv right c : good c -> (px lv < nv c)%nat ->
  let r := add_core s p lv right c in let c' := snd r in let n := nv c in
  fst r = mkPvar (1 + n) (2 + n) /\ good c' /\ ext c c' /\ nv c' = (9 + n)%nat /\
  (forall w, sat c' w <-> sat c w /\ w (3 + n)%nat = w n /\ w (4 + n)%nat = w n /\ w (5 + n)%nat = w n * w n /\
     w (6 + n)%nat = w n /\ w (7 + n)%nat = fst right - w (1 + n)%nat /\ w (8 + n)%nat = w n * (fst right - w (1 + n)%nat) /\
     w (5 + n)%nat = w (px lv) + fst right + w (1 + n)%nat /\ w (8 + n)%nat = snd right + w (2 + n)%nat) /\
  wval c' n = s /\ wval c' (1 + n)%nat = fst p /\ wval c' (2 + n)%nat = snd p /\
  (sat c (wval c) -> s * s = wval c (px lv) + fst right + fst p -> s * (fst right - fst p) = snd right + snd p -> sat c' (wval c')).
Proof.
  intros G L. cbv zeta. unfold add_core.
  destruct (alloc_ok s c G) as [G1 [E1 [N1 [S1 V1]]]]. destruct (allocate s c) as [v1 c1] eqn:A1. assert (v1 = nv c) by (injection A1; auto). cbn [fst snd] in *.
  destruct (alloc_ok (fst p) c1 G1) as [G2 [E2 [N2 [S2 V2]]]]. destruct (allocate (fst p) c1) as [v2 c2] eqn:A2. assert (v2 = nv c1) by (injection A2; auto). cbn [fst snd] in *.
  destruct (alloc_ok (snd p) c2 G2) as [G3 [E3 [N3 [S3 V3]]]]. destruct (allocate (snd p) c2) as [v3 c3] eqn:A3. assert (v3 = nv c2) by (injection A3; auto). cbn [fst snd] in *.
  subst v1 v2 v3.
  assert (W1 : wf_lc (nv c3) (lvar (nv c) : lc F)) by (apply wf_lvar; lia).
  destruct (multiply_ok (lvar (nv c)) (lvar (nv c)) c3 G3 W1 W1) as [M1 [G4 [E4 [N4 [_ [_ [S4 T4]]]]]]].
  destruct (multiply (lvar (nv c)) (lvar (nv c)) c3) as [[[a1 b1] o1] c4] eqn:B1. cbn [fst snd] in *. injection M1 as -> -> ->.
  assert (W2 : wf_lc (nv c4) (lvar (nv c) : lc F)) by (apply wf_lvar; lia).
  assert (W3 : wf_lc (nv c4) (lsub (lconst (fst right)) (lvar (nv c1)) : lc F)) by (apply wf_lsub; [apply wf_lconst|apply wf_lvar; lia]).
  destruct (multiply_ok _ _ c4 G4 W2 W3) as [M2 [G5 [E5 [N5 [_ [_ [S5 T5]]]]]]].
  destruct (multiply (lvar (nv c)) (lsub (lconst (fst right)) (lvar (nv c1))) c4) as [[[a2 b2] o2] c5] eqn:B2. cbn [fst snd] in *. injection M2 as -> -> ->.
  assert (N3' : nv c3 = (3 + nv c)%nat) by lia. assert (N4' : nv c4 = (6 + nv c)%nat) by lia. assert (N5' : nv c5 = (9 + nv c)%nat) by lia.
  set (c6 := constrain _ c5). set (c7 := constrain _ c6).
  assert (G6 : good c6) by (apply good_constrain; [exact G5|]; repeat apply wf_lsub; try apply wf_lconst; apply wf_lvar; lia).
  assert (G7 : good c7) by (apply good_constrain; [exact G6|]; change (nv c6) with (nv c5); repeat apply wf_lsub; try apply wf_lconst; apply wf_lvar; lia).
  assert (EE : ext c c5) by (eapply ext_trans; [exact E1|]; eapply ext_trans; [exact E2|]; eapply ext_trans; [exact E3|]; eapply ext_trans; [exact E4|exact E5]).
  assert (SI : forall w, sat c7 w <-> sat c w /\ w (3 + nv c)%nat = w (nv c) /\ w (4 + nv c)%nat = w (nv c) /\ w (5 + nv c)%nat = w (nv c) * w (nv c) /\
     w (6 + nv c)%nat = w (nv c) /\ w (7 + nv c)%nat = fst right - w (1 + nv c)%nat /\ w (8 + nv c)%nat = w (nv c) * (fst right - w (1 + nv c)%nat) /\
     w (5 + nv c)%nat = w (px lv) + fst right + w (1 + nv c)%nat /\ w (8 + nv c)%nat = snd right + w (2 + nv c)%nat).
  { intros w. unfold c7, c6. rewrite !sat_constrain, S5, S4, S3, S2, S1, !leval_sub, !leval_var, !leval_const, N4', N3', N1, N2, N1. cbn [Nat.add].
    split.
    - intros [[[[H0 [H1 [H2 H3]]] [H4 [H5 H6]]] H7] H8]. conj; auto.
      + transitivity (w (S (S (S (S (S (nv c)))))) - w (px lv) - fst right - w (S (nv c)) + (w (px lv) + fst right + w (S (nv c)))); [ring|rewrite H7; ring].
      + transitivity (w (S (S (S (S (S (S (S (S (nv c)))))))))  - snd right - w (S (S (nv c))) + (snd right + w (S (S (nv c))))); [ring|rewrite H8; ring].
    - intros [H0 [H1 [H2 [H3 [H4 [H5 [H6 [H7 H8]]]]]]]]. conj; auto; [rewrite H7; ring|rewrite H8; ring]. }
  assert (U0 : wval c7 (nv c) = s). { change (wval c7) with (wval c5). rewrite <- V1. destruct E2 as [_ E2]. rewrite <- E2 by lia. destruct E3 as [_ E3], E4 as [_ E4], E5 as [_ E5]. rewrite E5, E4, E3 by lia. reflexivity. }
  assert (U1 : wval c7 (1 + nv c)%nat = fst p). { change (wval c7) with (wval c5). rewrite <- V2. destruct E3 as [_ E3], E4 as [_ E4], E5 as [_ E5]. replace (1 + nv c)%nat with (nv c1) by lia. rewrite E5, E4, E3 by lia. reflexivity. }
  assert (U2 : wval c7 (2 + nv c)%nat = snd p). { change (wval c7) with (wval c5). rewrite <- V3. destruct E4 as [_ E4], E5 as [_ E5]. replace (2 + nv c)%nat with (nv c2) by lia. rewrite E5, E4 by lia. reflexivity. }
  conj; auto.
  - f_equal; lia.
  - intros Sc H1 H2.
    assert (Sc3 : sat c3 (wval c3)). { apply S3, S2, S1. apply (sat_agree c (wval c)); [exact G| |exact Sc]. intros i Hi. destruct E1 as [_ E1], E2 as [_ E2], E3 as [_ E3]. rewrite E3, E2, E1 by lia. reflexivity. }
    apply T4, T5 in Sc3. pose proof Sc3 as Q. apply S5 in Q. destruct Q as [Q [Q1 [Q2 Q3]]]. apply S4 in Q. destruct Q as [Q [Q4 [Q5 Q6]]].
    unfold c7, c6. rewrite !sat_constrain, !leval_sub, !leval_var, !leval_const. change (wval (constrain _ (constrain _ c5))) with (wval c5). change (wval c7) with (wval c5) in *.
    rewrite Q3, Q6, !leval_sub, !leval_var, !leval_const.
    replace (nv c1) with (1 + nv c)%nat in * by lia. replace (nv c2) with (2 + nv c)%nat in * by lia. rewrite U0, U1, U2, H1, H2. rewrite (proj2 EE) by exact L. conj; auto; ring.
Qed.
(** An assignment of the smaller system extends with any slope. *)
Lemma add_core_adv s p lv right c w s' : good c -> (px lv < nv c)%nat -> sat c w ->
  exists w', agree (nv c) w w' /\ sat (snd (add_core s p lv right c)) w' /\
    (w' (1 + nv c)%nat, w' (2 + nv c)%nat) = plus_slope s' (w (px lv), 0) right.
Proof.
  intros G L Sc. destruct (add_core_ok s p lv right c G L) as [_ [_ [_ [_ [SI _]]]]].
  set (x := s' * s' - w (px lv) - fst right). set (y := s' * (fst right - x) - snd right).
  set (l := [s'; x; y; s'; s'; s' * s'; s'; fst right - x; s' * (fst right - x)]).
  exists (over (nv c) w l). pose proof (over_agree (nv c) w l) as A. conj; [exact A| |].
  - apply SI. change (over (nv c) w l (nv c)) with (over (nv c) w l (0 + nv c)%nat). rewrite !over_ge. rewrite (over_lt _ _ _ (px lv)) by exact L. cbn [nth l].
    conj; try reflexivity; [apply (sat_agree c w); auto|unfold x; ring|unfold y; ring].
  - rewrite !over_ge. reflexivity.
Qed.

(** ** Selection *)
Definition select_core (p : pt) (bv : nat) (yv nov : pvar) (c : cs) : pvar * cs :=
  let (x, c1) := allocate (fst p) c in
  let (y, c1) := allocate (snd p) c1 in
  let '(_, _, xd, c2) := multiply (lvar bv) (lsub (lvar (px yv)) (lvar (px nov))) c1 in
  let '(_, _, yd, c3) := multiply (lvar bv) (lsub (lvar (py yv)) (lvar (py nov))) c2 in
  let c4 := constrain (lsub (lsub (lvar x) (lvar (px nov))) (lvar xd)) c3 in
  let c5 := constrain (lsub (lsub (lvar y) (lvar (py nov))) (lvar yd)) c4 in
  (mkPvar x y, c5).
Lemma select_eq bv bit yv yes nov no c : point_select bv bit yv yes nov no c =
  let res := match bit with Some true => yes | Some false => no | None => None end in
  let r := select_core (ov (0, 0) res) bv yv nov c in (res, fst r, snd r).
Proof. unfold point_select. destruct bit as [[|]|]; [destruct yes as [[x y]|]|destruct no as [[x y]|]|]; reflexivity. Qed.

Definition wfp (n : nat) (v : pvar) : Prop := (px v < n /\ py v < n)%nat.
Lemma select_core_ok p bv yv nov c : good c -> (bv < nv c)%nat -> wfp (nv c) yv -> wfp (nv c) nov ->
  let r := select_core p bv yv nov c in let c' := snd r in let n := nv c in
  fst r = mkPvar n (1 + n) /\ good c' /\ ext c c' /\ nv c' = (8 + n)%nat /\
  (forall w, sat c' w <-> sat c w /\ w (2 + n)%nat = w bv /\ w (3 + n)%nat = w (px yv) - w (px nov) /\ w (4 + n)%nat = w bv * (w (px yv) - w (px nov)) /\
     w (5 + n)%nat = w bv /\ w (6 + n)%nat = w (py yv) - w (py nov) /\ w (7 + n)%nat = w bv * (w (py yv) - w (py nov)) /\
     w n = w (px nov) + w (4 + n)%nat /\ w (1 + n)%nat = w (py nov) + w (7 + n)%nat) /\
  wval c' n = fst p /\ wval c' (1 + n)%nat = snd p /\
  (sat c (wval c) -> fst p = wval c (px nov) + wval c bv * (wval c (px yv) - wval c (px nov)) -> snd p = wval c (py nov) + wval c bv * (wval c (py yv) - wval c (py nov)) -> sat c' (wval c')).
Proof.
  intros G L [Ly1 Ly2] [Ln1 Ln2]. cbv zeta. unfold select_core.
  destruct (alloc_ok (fst p) c G) as [G1 [E1 [N1 [S1 V1]]]]. destruct (allocate (fst p) c) as [v1 c1] eqn:A1. assert (v1 = nv c) by (injection A1; auto). cbn [fst snd] in *.
  destruct (alloc_ok (snd p) c1 G1) as [G3 [E3 [N3 [S3 V3]]]]. destruct (allocate (snd p) c1) as [v2 c3] eqn:A2. assert (v2 = nv c1) by (injection A2; auto). cbn [fst snd] in *.
  subst v1 v2.
  assert (W1 : wf_lc (nv c3) (lvar bv : lc F)) by (apply wf_lvar; lia).
  assert (W1' : wf_lc (nv c3) (lsub (lvar (px yv)) (lvar (px nov)) : lc F)) by (apply wf_lsub; apply wf_lvar; lia).
  destruct (multiply_ok _ _ c3 G3 W1 W1') as [M1 [G4 [E4 [N4 [_ [_ [S4 T4]]]]]]].
  destruct (multiply (lvar bv) (lsub (lvar (px yv)) (lvar (px nov))) c3) as [[[a1 b1] o1] c4] eqn:B1. cbn [fst snd] in *. injection M1 as -> -> ->.
  assert (W2 : wf_lc (nv c4) (lvar bv : lc F)) by (apply wf_lvar; lia).
  assert (W3 : wf_lc (nv c4) (lsub (lvar (py yv)) (lvar (py nov)) : lc F)) by (apply wf_lsub; apply wf_lvar; lia).
  destruct (multiply_ok _ _ c4 G4 W2 W3) as [M2 [G5 [E5 [N5 [_ [_ [S5 T5]]]]]]].
  destruct (multiply (lvar bv) (lsub (lvar (py yv)) (lvar (py nov))) c4) as [[[a2 b2] o2] c5] eqn:B2. cbn [fst snd] in *. injection M2 as -> -> ->.
  assert (N3' : nv c3 = (2 + nv c)%nat) by lia. assert (N4' : nv c4 = (5 + nv c)%nat) by lia. assert (N5' : nv c5 = (8 + nv c)%nat) by lia.
  set (c6 := constrain _ c5). set (c7 := constrain _ c6).
  assert (G6 : good c6) by (apply good_constrain; [exact G5|]; repeat apply wf_lsub; try apply wf_lconst; apply wf_lvar; lia).
  assert (G7 : good c7) by (apply good_constrain; [exact G6|]; change (nv c6) with (nv c5); repeat apply wf_lsub; try apply wf_lconst; apply wf_lvar; lia).
  assert (EE : ext c c5) by (eapply ext_trans; [exact E1|]; eapply ext_trans; [exact E3|]; eapply ext_trans; [exact E4|exact E5]).
  assert (SI : forall w, sat c7 w <-> sat c w /\ w (2 + nv c)%nat = w bv /\ w (3 + nv c)%nat = w (px yv) - w (px nov) /\ w (4 + nv c)%nat = w bv * (w (px yv) - w (px nov)) /\
     w (5 + nv c)%nat = w bv /\ w (6 + nv c)%nat = w (py yv) - w (py nov) /\ w (7 + nv c)%nat = w bv * (w (py yv) - w (py nov)) /\
     w (nv c) = w (px nov) + w (4 + nv c)%nat /\ w (1 + nv c)%nat = w (py nov) + w (7 + nv c)%nat).
  { intros w. unfold c7, c6. rewrite !sat_constrain, S5, S4, S3, S1, !leval_sub, !leval_var, N4', N3', N1. cbn [Nat.add].
    split.
    - intros [[[[H0 [H1 [H2 H3]]] [H4 [H5 H6]]] H7] H8]. conj; auto.
      + transitivity (w (nv c) - w (px nov) - w (S (S (S (S (nv c))))) + (w (px nov) + w (S (S (S (S (nv c))))))); [ring|rewrite H7; ring].
      + transitivity (w (S (nv c)) - w (py nov) - w (S (S (S (S (S (S (S (nv c)))))))) + (w (py nov) + w (S (S (S (S (S (S (S (nv c)))))))))); [ring|rewrite H8; ring].
    - intros [H0 [H1 [H2 [H3 [H4 [H5 [H6 [H7 H8]]]]]]]]. conj; auto; [rewrite H7; ring|rewrite H8; ring]. }
  assert (U0 : wval c7 (nv c) = fst p). { change (wval c7) with (wval c5). rewrite <- V1. destruct E3 as [_ E3], E4 as [_ E4], E5 as [_ E5]. rewrite E5, E4, E3 by lia. reflexivity. }
  assert (U1 : wval c7 (1 + nv c)%nat = snd p). { change (wval c7) with (wval c5). rewrite <- V3. destruct E4 as [_ E4], E5 as [_ E5]. replace (1 + nv c)%nat with (nv c1) by lia. rewrite E5, E4 by lia. reflexivity. }
  conj; auto.
  - intros Sc H1 H2.
    assert (Sc3 : sat c3 (wval c3)). { apply S3, S1. apply (sat_agree c (wval c)); [exact G| |exact Sc]. intros i Hi. destruct E1 as [_ E1], E3 as [_ E3]. rewrite E3, E1 by lia. reflexivity. }
    apply T4, T5 in Sc3. pose proof Sc3 as Q. apply S5 in Q. destruct Q as [Q [Q1 [Q2 Q3]]]. apply S4 in Q. destruct Q as [Q [Q4 [Q5 Q6]]].
    unfold c7, c6. rewrite !sat_constrain, !leval_sub, !leval_var. change (wval (constrain _ (constrain _ c5))) with (wval c5). change (wval c7) with (wval c5) in *.
    rewrite Q3, Q6, !leval_sub, !leval_var.
    replace (nv c1) with (1 + nv c)%nat in * by lia. rewrite U0, U1, H1, H2. rewrite !(proj2 EE) by assumption. conj; auto; ring.
Qed.
Lemma select_core_adv p bv yv nov c w : good c -> (bv < nv c)%nat -> wfp (nv c) yv -> wfp (nv c) nov -> sat c w ->
  exists w', agree (nv c) w w' /\ sat (snd (select_core p bv yv nov c)) w' /\
    w' (nv c) = w (px nov) + w bv * (w (px yv) - w (px nov)) /\ w' (1 + nv c)%nat = w (py nov) + w bv * (w (py yv) - w (py nov)).
Proof.
  intros G L Wy Wn Sc. destruct (select_core_ok p bv yv nov c G L Wy Wn) as [_ [_ [_ [_ [SI _]]]]]. destruct Wy as [Y1 Y2], Wn as [O1 O2].
  set (dx := w (px yv) - w (px nov)). set (dy := w (py yv) - w (py nov)).
  set (l := [w (px nov) + w bv * dx; w (py nov) + w bv * dy; w bv; dx; w bv * dx; w bv; dy; w bv * dy]).
  exists (over (nv c) w l). pose proof (over_agree (nv c) w l) as A. conj; [exact A| | |].
  - apply SI. change (over (nv c) w l (nv c)) with (over (nv c) w l (0 + nv c)%nat). rewrite !over_ge. rewrite !over_lt by assumption. cbn [nth l].
    conj; try reflexivity. apply (sat_agree c w); auto.
  - exact (over_ge (nv c) w l 0).
  - exact (over_ge (nv c) w l 1).
Qed.

(** ** Bits *)
Definition b2f (b : bool) : F := if b then 1 else 0.
Lemma bool_cases (x y : F) : 0 = x * y -> x + y - 1 = 0 -> x = 0 \/ x = 1.
Proof.
  intros H1 H2. assert (E : y = 1 - x) by (transitivity (x + y - 1 + (1 - x)); [ring|rewrite H2; ring]). subst y.
  symmetry in H1. apply (fmul_0 F) in H1. destruct H1 as [H|H]; [now left|right].
  transitivity (1 - (1 - x)); [ring|rewrite H; ring].
Qed.
Definition bitv (b : option bool) : F * F := match b with Some true => (1, 0) | Some false => (0, 1) | None => (0, 0) end.
Lemma alloc_bit_ok b c : good c ->
  let r := alloc_bit b c in let c' := snd r in let n := nv c in
  fst r = n /\ good c' /\ ext c c' /\ nv c' = (3 + n)%nat /\
  (forall w, sat c' w <-> sat c w /\ w (2 + n)%nat = w n * w (1 + n)%nat /\ w (2 + n)%nat = 0 /\ w n + w (1 + n)%nat - 1 = 0) /\
  (forall v, b = Some v -> sat c (wval c) -> sat c' (wval c') /\ wval c' n = b2f v).
Proof.
  intros G. cbv zeta. assert (E : alloc_bit b c = let '(bv, nb, p, c1) := allocate_multiplier (fst (bitv b)) (snd (bitv b)) c in
    (bv, constrain (lsub (ladd (lvar bv) (lvar nb)) (lconst 1)) (constrain (lvar p) c1))) by (destruct b as [[|]|]; reflexivity).
  rewrite E. clear E. set (x := fst (bitv b)). set (y := snd (bitv b)).
  destruct (alloc_mul_ok x y c G) as [G1 [E1 [N1 [_ [_ [V0 [V1 [S1 V2]]]]]]]].
  unfold allocate_multiplier in *. cbn [snd] in *. set (c1 := mkCs _ _ _ _ _ _) in *. cbv zeta iota. cbn [fst snd].
  set (c2 := constrain _ c1). set (c3 := constrain _ c2).
  assert (G2 : good c2) by (apply good_constrain; [exact G1|apply wf_lvar; lia]).
  assert (G3 : good c3) by (apply good_constrain; [exact G2|change (nv c2) with (nv c1); apply wf_lsub; [apply wf_ladd; apply wf_lvar; lia|apply wf_lconst]]).
  assert (SI : forall w, sat c3 w <-> sat c w /\ w (2 + nv c)%nat = w (nv c) * w (1 + nv c)%nat /\ w (2 + nv c)%nat = 0 /\ w (nv c) + w (1 + nv c)%nat - 1 = 0).
  { intros w. unfold c3, c2. rewrite !sat_constrain, S1, leval_sub, leval_add, !leval_var, leval_const. cbn [Nat.add]. tauto. }
  conj; auto.
  intros v -> Sc. assert (A : sat c (wval c3)) by (apply (sat_agree c (wval c)); [exact G| |exact Sc]; intros i Hi; symmetry; now apply E1).
  change (wval c3) with (wval c1) in *. split.
  - apply SI. change (2 + nv c)%nat with (S (S (nv c))). change (1 + nv c)%nat with (S (nv c)). change (wval c3) with (wval c1). rewrite V0, V1, V2. subst x y. destruct v; cbn; conj; auto; ring.
  - rewrite V0. subst x. now destruct v.
Qed.
Lemma alloc_bits_ok : forall l c, good c ->
  let r := alloc_bits l c in let c' := snd r in
  length (fst r) = length l /\ Forall (fun v => (v < nv c')%nat) (fst r) /\ good c' /\ ext c c' /\
  (forall w, sat c' w -> sat c w /\ exists bs, length bs = length l /\ map w (fst r) = map b2f bs) /\
  (forall w bs, length bs = length l -> sat c w -> exists w', agree (nv c) w w' /\ sat c' w' /\ map w' (fst r) = map b2f bs) /\
  (forall bs, l = map Some bs -> sat c (wval c) -> sat c' (wval c') /\ map (wval c') (fst r) = map b2f bs).
Proof.
  induction l as [|b l IH]; intros c G; cbv zeta; cbn [alloc_bits].
  - cbn [fst snd]. conj; auto using ext_refl.
    + intros w Sc. split; [exact Sc|]. now exists [].
    + intros w bs L Sc. destruct bs; [|discriminate]. exists w. conj; auto. now intros i _.
    + intros bs E Sc. destruct bs; [|discriminate]. auto.
  - destruct (alloc_bit_ok b c G) as [R1 [G1 [E1 [N1 [S1 T1]]]]]. destruct (alloc_bit b c) as [v c1]. cbn [fst snd] in *. subst v.
    destruct (IH c1 G1) as [L2 [B2 [G2 [E2 [D2 [A2 T2]]]]]]. destruct (alloc_bits l c1) as [r c2]. cbn [fst snd] in *. conj.
    + cbn. lia.
    + constructor; [|exact B2]. destruct E2 as [E2 _]. lia.
    + exact G2.
    + eapply ext_trans; eauto.
    + intros w Sw. apply D2 in Sw. destruct Sw as [Sw [bs [Lb Eb]]]. apply S1 in Sw. destruct Sw as [Sw [H1 [H2 H3]]]. split; [exact Sw|].
      rewrite H2 in H1. destruct (bool_cases _ _ H1 H3) as [E|E]; [exists (false :: bs)|exists (true :: bs)]; cbn; rewrite E, Eb, Lb; auto.
    + intros w bs L Sw. destruct bs as [|b' bs]; [discriminate|]. cbn in L.
      set (l1 := [b2f b'; 1 - b2f b'; 0]).
      assert (Sw1 : sat c1 (over (nv c) w l1)).
      { apply S1. pose proof (over_ge (nv c) w l1 0) as Q0. pose proof (over_ge (nv c) w l1 1) as Q1. pose proof (over_ge (nv c) w l1 2) as Q2. change (0 + nv c)%nat with (nv c) in Q0. cbn [nth l1] in Q0, Q1, Q2. rewrite Q0, Q1, Q2. conj; try ring; [apply (sat_agree c w); auto; apply over_agree|unfold b2f; destruct b'; ring]. }
      destruct (A2 _ bs ltac:(lia) Sw1) as [w' [Ag [Sw' Eb]]]. exists w'. conj; [|exact Sw'|].
      * intros i Hi. rewrite <- Ag by lia. now rewrite over_lt.
      * cbn. rewrite Eb. f_equal. rewrite <- Ag by lia. exact (over_ge (nv c) w l1 0).
    + intros bs E Sc. destruct bs as [|b' bs]; [discriminate|]. injection E as -> E. destruct (T1 b' eq_refl Sc) as [Sc1 V1]. destruct (T2 bs E Sc1) as [Sc2 V2]. split; [exact Sc2|].
      cbn. rewrite V2. f_equal. rewrite <- V1. destruct E2 as [_ E2]. apply E2. lia.
Qed.
Lemma fofZ_2 z : fofZ (F := F) (2 * z) = fofZ z + fofZ z.
Proof. replace (2 * z)%Z with (z + z)%Z by lia. apply (fofZ_add F). Qed.
Lemma weighted_val (w : nat -> F) : forall l bs m, map w l = map b2f bs -> leval w (weighted m l) = m * fofZ (bits_val bs).
Proof.
  induction l as [|v l IH]; intros [|b bs] m E; cbn [map] in E; try discriminate.
  - cbn [weighted bits_val]. rewrite leval_const. change (fofZ (F := F) 0) with (f0 : F). ring.
  - injection E as E1 E2. cbn [weighted bits_val]. rewrite leval_add, leval_scale, leval_var, (IH bs _ E2), E1, (fofZ_add F), fofZ_2.
    destruct b; cbn [b2f]; [change (fofZ (F := F) 1) with (f1 : F)|change (fofZ (F := F) 0) with (f0 : F)]; ring.
Qed.
Lemma wf_weighted n : forall l m, Forall (fun v => (v < n)%nat) l -> wf_lc n (weighted (F := F) m l).
Proof. induction l as [|v l IH]; intros m H; cbn [weighted]; [apply wf_lconst|]. inversion H; subst. apply wf_ladd; [apply wf_lscale, wf_lvar; auto|apply IH; auto]. Qed.

(** ** The additions *)
Lemma plus_slope_y s (p q g : pt) : fst p = fst q -> plus_slope s p g = plus_slope s q g.
Proof. intros E. unfold plus_slope. now rewrite E. Qed.
Lemma sel (b : bool) (x y : F) : x + b2f b * (y - x) = if b then y else x.
Proof. destruct b; cbn; ring. Qed.
Definition at_ (w : nat -> F) (v : pvar) : pt := (w (px v), w (py v)).
Definition keep (l : list (bool * nat * pt)) : list (option bool * nat * pt) := map (fun t => (Some (fst (fst t)), snd (fst t), snd t)) l.
Lemma add_points_ok : forall pts bv cv c, length bv = length pts -> good c -> wfp (nv c) cv -> Forall (fun v => (v < nv c)%nat) bv ->
  exists cv' c', add_points (combine (combine (repeat None (length pts)) bv) pts) None cv c = Ok (None, cv', c') /\
    good c' /\ ext c c' /\ wfp (nv c') cv' /\
    (forall w, sat c' w -> sat c w /\ forall bs, map w bv = map b2f bs -> exists ss, length ss = length pts /\ at_ w cv' = walk (combine (combine bs pts) ss) (at_ w cv)) /\
    (forall w bs ss, sat c w -> map w bv = map b2f bs -> length ss = length pts -> exists w', agree (nv c) w w' /\ sat c' w' /\ at_ w' cv' = walk (combine (combine bs pts) ss) (at_ w cv)).
Proof.
  induction pts as [|p pts IH]; intros bv cv c L G W B.
  - exists cv, c. destruct bv; [|discriminate]. cbn. conj; auto using ext_refl.
    + intros w Sw. split; [exact Sw|]. intros bs E. exists []. split; [reflexivity|]. destruct bs; [reflexivity|discriminate].
    + intros w bs ss Sw E Ls. destruct bs; [|discriminate]. exists w. conj; auto. now intros i _.
  - destruct bv as [|b bv]; [discriminate|]. cbn [length repeat combine add_points]. rewrite add_eq. cbn [bind option_map ov fst snd].
    inversion B as [|? ? B1 B2]; subst.
    destruct (add_core_ok 0 (0, 0) cv p c G (proj1 W)) as [R1 [G1 [E1 [N1 [S1 _]]]]].
    pose proof (fun w s' => add_core_adv 0 (0, 0) cv p c w s' G (proj1 W)) as A1.
    set (r1 := add_core 0 (0, 0) cv p c) in *. destruct r1 as [nx c1] eqn:Q1. cbn [fst snd] in *. subst nx.
    rewrite select_eq. cbn [ov].
    assert (W1 : wfp (nv c1) (mkPvar (1 + nv c) (2 + nv c))) by (split; cbn; lia).
    assert (W2 : wfp (nv c1) cv) by (destruct W; split; lia).
    assert (B1' : (b < nv c1)%nat) by lia.
    destruct (select_core_ok (0, 0) b (mkPvar (1 + nv c) (2 + nv c)) cv c1 G1 B1' W1 W2) as [R2 [G2 [E2 [N2 [S2 _]]]]].
    pose proof (fun w => select_core_adv (0, 0) b (mkPvar (1 + nv c) (2 + nv c)) cv c1 w G1 B1' W1 W2) as A2.
    cbv zeta. change (@None pt) with (@None pt). destruct (select_core (0, 0) b (mkPvar (1 + nv c) (2 + nv c)) cv c1) as [sv c2] eqn:Q2. cbn [fst snd] in *. subst sv.
    assert (L' : length bv = length pts) by (cbn in L; lia).
    destruct (IH bv (mkPvar (nv c1) (1 + nv c1)) c2 L' G2 ltac:(split; cbn; lia) ltac:(revert B2; apply Forall_impl; intros; lia)) as [cv' [c' [H1 [H2 [H3 [H4 [H5 H6]]]]]]].
    exists cv', c'. conj; auto.
    + eapply ext_trans; [exact E1|]. eapply ext_trans; eauto.
    + intros w Sw. destruct (H5 w Sw) as [Sw2 H5']. apply S2 in Sw2. destruct Sw2 as [Sw1 [K1 [K2 [K3 [K4 [K5 [K6 [K7 K8]]]]]]]]. apply S1 in Sw1. destruct Sw1 as [Sw0 [J1 [J2 [J3 [J4 [J5 [J6 [J7 J8]]]]]]]].
      split; [exact Sw0|]. intros bs E. destruct bs as [|b' bs]; [discriminate|]. cbn [map] in E. injection E as Eb E.
      destruct (H5' bs E) as [ss [Ls Ew]]. exists (w (nv c) :: ss). split; [cbn; lia|]. rewrite Ew. cbn [combine walk]. f_equal. unfold at_ at 1. cbn [px py] in *. rewrite K7, K8, K3, K6, Eb, !sel.
      destruct b'; [|reflexivity]. unfold plus_slope, at_. cbn [fst snd].
      assert (X : w (1 + nv c)%nat = w (nv c) * w (nv c) - w (px cv) - fst p) by (rewrite <- J3, J7; ring).
      f_equal; [exact X|]. rewrite <- X. rewrite <- J6, J8. ring.
    + intros w bs ss Sw E Ls. destruct bs as [|b' bs]; [discriminate|]. cbn [map] in E. injection E as Eb E. destruct ss as [|s ss]; [discriminate|].
      destruct (A1 w s Sw) as [w1 [Ag1 [Sw1 P1]]]. destruct (A2 w1 Sw1) as [w2 [Ag2 [Sw2 [P2 P3]]]]. cbn [px py] in *.
      assert (E2' : map w2 bv = map b2f bs). { rewrite <- E. apply map_ext_in. intros v Hv. rewrite Forall_forall in B2. specialize (B2 v Hv). rewrite <- Ag2, <- Ag1 by lia. reflexivity. }
      destruct (H6 w2 bs ss Sw2 E2' ltac:(cbn in Ls; lia)) as [w3 [Ag3 [Sw3 P4]]]. exists w3. conj; [|exact Sw3|].
      * intros i Hi. rewrite <- Ag3, <- Ag2, <- Ag1 by lia. reflexivity.
      * rewrite P4. cbn [combine walk]. f_equal. unfold at_ at 1. cbn [px py]. rewrite P2, P3. destruct W as [Wx Wy]. rewrite <- (Ag1 b B1), <- (Ag1 (px cv) Wx), <- (Ag1 (py cv) Wy), Eb, !sel. destruct b'; [|reflexivity].
        rewrite P1. now apply plus_slope_y.
Qed.
End Proofs.
