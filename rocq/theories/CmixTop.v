(** The mix as a whole: exactly which values the verifier's system accepts. *)
From Coq Require Import List Arith NArith ZArith Bool Lia Permutation Field Ring.
From Verif Require Import Base Field PField PolyModel PolySpec PolyProofs PolyLemmas PlonkPoly CmixModel CmixSpec CmixProofs CmixSystem CmixPhase.
Import ListNotations.
Local Open Scope F_scope.

Section Top.
Ltac conj := repeat match goal with |- _ /\ _ => split end.
Context {F : PField}.
Add Field Ftp : (f_th F).
Notation cs := (cs F).
Notation mval := (mval F).
Notation rec := (record_at (F := F)).
Implicit Types (c : cs) (w : nat -> F) (C : F -> Prop).

(** ** [sort] and [merge]: lengths *)
Lemma set_nth_length {A} (x : A) : forall i l, length (set_nth i x l) = length l.
Proof. induction i; intros [|y l]; cbn; auto. Qed.
Lemma swap_length {A} (d : A) i j l : length (swap d i j l) = length l. Proof. unfold swap. now rewrite !set_nth_length. Qed.
Lemma sort_inner_length t : forall fuel (l : list mval) j s, length (fst (sort_inner fuel t l j s)) = length l.
Proof.
  induction fuel as [|k IH]; intros l j s; cbn [sort_inner]; [reflexivity|]. destruct (Nat.ltb j s); [|reflexivity].
  destruct (feqb t (atype (nth j l dval))); [apply IH|]. rewrite IH. apply swap_length.
Qed.
Lemma sort_outer_length : forall fuel (l : list mval) i, length (sort_outer fuel l i) = length l.
Proof.
  induction fuel as [|k IH]; intros l i; cbn [sort_outer]; [reflexivity|]. destruct (Nat.ltb i (length l)); [|reflexivity].
  pose proof (sort_inner_length (atype (nth i l dval)) (length l) l (S i) (pred (length l))) as H. destruct (sort_inner _ _ _ _ _) as [l' j]. cbn in H. now rewrite IH.
Qed.
Lemma sort_length (l : list mval) : length (sort l) = length l. Proof. apply sort_outer_length. Qed.
Lemma merge_loop_length : forall (l : list mval) prev, length (fst (merge_loop prev l)) = length l /\ length (snd (merge_loop prev l)) = length l.
Proof.
  induction l as [|v l IH]; intros prev; cbn [merge_loop]; [auto|]. destruct (feqb (atype v) (atype prev)).
  - specialize (IH (mkVal (amount prev + amount v) (atype v))). destruct (merge_loop _ l). cbn in *. lia.
  - specialize (IH v). destruct (merge_loop v l). cbn in *. lia.
Qed.

(** ** The first phase is [mix_gen] *)
(** The lists of one side: zeros for the verifier, the computed ones for the prover. *)
Definition merged_of (l : list mval) : list mval * list mval :=
  match l with
  | [] => ([], [])
  | v :: l' => let r := merge_loop v l' in (removelast (fst r), snd r ++ [last (fst r) dval])
  end.
Definition vals (n : nat) (o : option (list mval)) : list mval * list mval * list mval :=
  match o with
  | None => if Nat.eqb n 1 then ([], [], [dval]) else (repeat dval n, repeat dval (n - 2), repeat dval n)
  | Some l => if Nat.eqb n 1 then ([], [], l) else let r := merged_of (sort l) in (sort l, fst r, snd r)
  end.
Definition fits (n : nat) (o : option (list mval)) : Prop := match o with None => True | Some l => length l = n end.
Lemma vals_sized n o : (1 <= n)%nat -> fits n o -> sized n (fst (fst (vals n o))) (snd (fst (vals n o))) (snd (vals n o)).
Proof.
  intros N H. unfold sized. destruct o as [l|]; cbn [vals fits] in *; destruct (Nat.eqb_spec n 1) as [->|Ne]; cbn [fst snd].
  - split; [exact H|left; auto].
  - assert (L := sort_length l). destruct (sort l) as [|v s]; [cbn in L; lia|]. unfold merged_of. cbn [fst snd]. destruct (merge_loop_length s v) as [A B].
    rewrite app_length, removelast_length, A, B. cbn in *. split; [lia|right; lia].
  - split; [reflexivity|left; auto].
  - rewrite !repeat_length. split; [reflexivity|right; lia].
Qed.
Lemma fold_specify_cons g gs c : fold_left (fun c g => specify g c) (g :: gs) c = fold_left (fun c g => specify g c) gs (specify g c). Proof. reflexivity. Qed.
Lemma sm_gen vars o c : (1 <= length vars)%nat -> fits (length vars) o -> good c ->
  let '(U, Y, M) := vals (length vars) o in
  sort_and_merge vars o c = Ok ((if Nat.eqb (length vars) 1 then 0 else (length vars + 2 * (length vars - 1)) + (length vars - 1))%nat, fst (side_gen vars U Y M c), snd (side_gen vars U Y M c)).
Proof.
  intros N H G. unfold sort_and_merge. destruct (Nat.eqb_spec (length vars) 0) as [E0|_]; [lia|].
  destruct (Nat.eqb_spec (length vars) 1) as [E1|N1].
  - unfold vals, allocate_mix_vector. rewrite E1. cbn [Nat.eqb]. destruct o as [l|]; unfold side_gen; cbn [alloc_values side_items fold_left fits] in *.
    + destruct (alloc_values l c); reflexivity.
    + cbn. reflexivity.
  - set (n := length vars) in *.
    assert (X : exists U Y M, vals n o = (U, Y, M) /\ length U = n /\ length M = n /\ length Y = (n - 2)%nat /\
       bind (match option_map sort o with None => Ok None | Some s => rmap Some (merge s) end) (fun merged =>
         let (sv, c1) := allocate_mix_vector (option_map sort o) n c in
         let (iv, c2) := allocate_mix_vector (option_map fst merged) (n - 2) c1 in
         let (mv, c3) := allocate_mix_vector (option_map snd merged) n c2 in
         bind (mix_shuffle_gadget vars sv c3) (fun r1 =>
         bind (mix_merge_or_not_gadget sv iv mv (snd r1)) (fun r2 => Ok ((fst r1 + fst r2)%nat, mv, snd r2)))) =
       (let (sv, c1) := alloc_values U c in let (iv, c2) := alloc_values Y c1 in let (mv, c3) := alloc_values M c2 in
         bind (mix_shuffle_gadget vars sv c3) (fun r1 =>
         bind (mix_merge_or_not_gadget sv iv mv (snd r1)) (fun r2 => Ok ((fst r1 + fst r2)%nat, mv, snd r2))))).
    { destruct o as [l|]; cbn [vals fits option_map] in *; destruct (Nat.eqb_spec n 1) as [?|_]; try lia.
      - assert (L := sort_length l). eexists _, _, _. split; [reflexivity|]. destruct (vals_sized n (Some l) ltac:(lia) H) as [Z1 [[Z2 _]|[_ [Z3 Z4]]]]; [lia|].
        unfold vals in Z1, Z3, Z4. destruct (Nat.eqb_spec n 1) as [?|_]; [lia|]. cbn [fst snd] in *. conj; auto.
        destruct (sort l) as [|v [|u s]]; [cbn in L; lia|cbn in L; lia|]. unfold merge, merged_of. destruct (merge_loop v (u :: s)) as [i m]. reflexivity.
      - eexists _, _, _. split; [reflexivity|]. rewrite !repeat_length. conj; auto. }
    destruct X as [U [Y [M [EV [LS [LM [LI ->]]]]]]]. rewrite EV. unfold side_gen.
    destruct (alloc_ok U c G) as [V1 [G1 _]]. cbv zeta in *. destruct (alloc_values U c) as [sv c1]. cbn [fst snd] in *.
    destruct (alloc_ok Y c1 G1) as [V2 [G2 _]]. cbv zeta in *. destruct (alloc_values Y c1) as [iv c2]. cbn [fst snd] in *.
    destruct (alloc_ok M c2 G2) as [V3 _]. cbv zeta in *. destruct (alloc_values M c2) as [mv c3]. cbn [fst snd] in *.
    assert (Ls : length sv = n) by (rewrite V1, fresh_length; exact LS). assert (Li : length iv = (n - 2)%nat) by (rewrite V2, fresh_length; exact LI).
    assert (Lm : length mv = n) by (rewrite V3, fresh_length; exact LM). clear V1 V2 V3.
    assert (Q1 : mix_shuffle_gadget vars sv c3 = Ok ((n + 2 * (n - 1))%nat, specify (LShuffle (combine vars sv)) c3)).
    { unfold mix_shuffle_gadget. fold n. rewrite Ls, Nat.eqb_refl. cbn [negb]. unfold n in *. destruct vars as [|v0 [|v1 vars]]; [cbn in *; lia|cbn in *; lia|]. destruct sv; reflexivity. }
    rewrite Q1. cbn [bind fst snd]. destruct sv as [|s0 s']; [cbn in Ls; lia|]. destruct mv as [|m0 m']; [cbn in Lm; lia|].
    unfold mix_merge_or_not_gadget. rewrite Ls, Lm, Li. replace (Nat.eqb n 1) with false by (symmetry; apply Nat.eqb_neq; lia).
    rewrite Nat.eqb_refl. replace (Nat.eqb n (n - 2 + 2)) with true by (symmetry; apply Nat.eqb_eq; lia). cbn [negb orb bind fst snd side_items].
    rewrite fold_specify_cons. do 3 f_equal. unfold gates_for. rewrite map_length, !combine_length. rewrite removelast_length, app_length, Li, Lm. cbn [length] in *. lia.
Qed.
Lemma ranges_all : forall outs o c, fits (length outs) o ->
  range_all outs o c = ((64 * length outs)%nat, ranges outs (match o with None => repeat (repeat false 64) (length outs) | Some l => map (fun v => bits_of (amount v)) l end) c).
Proof.
  induction outs as [|v outs IH]; intros o c H; cbn [range_all]; [destruct o as [[|? ?]|]; cbn in *; try discriminate H; reflexivity|].
  unfold range_proof_64. set (zs := repeat false 64). destruct o as [[|x l]|]; cbn [fits length] in H; [discriminate H| |]; cbn [option_map hd tl map repeat length ranges].
  - destruct (range_loop (bits_of (amount x)) 1 (lvar (v_amount v)) c) as [va c1]. cbv beta iota. rewrite IH by (cbn; now injection H). cbv beta iota. f_equal. lia.
  - destruct (range_loop zs 1 (lvar (v_amount v)) c) as [va c1]. cbv beta iota. rewrite IH by exact H. cbv beta iota. f_equal. lia.
Qed.
(** The bit lists of the range proofs. *)
Definition bitsl (m : nat) (o : option (list mval)) : list (list bool) := match o with None => repeat (repeat false 64) m | Some l => map (fun v => bits_of (amount v)) l end.
Definition pads (n m : nat) : list mval := repeat dval (Nat.max n m - Nat.min n m).
Definition gates_of (n : nat) : nat := if Nat.eqb n 1 then 0%nat else (n + 2 * (n - 1) + (n - 1))%nat.
Lemma mix_is_gen ins io outs oo c : (1 <= length ins)%nat -> (1 <= length outs)%nat -> fits (length ins) io -> fits (length outs) oo -> good c ->
  Forall (wf_var (nv c)) ins -> Forall (wf_var (nv c)) outs ->
  let '(U, Y, M) := vals (length ins) io in let '(U', Y', M') := vals (length outs) oo in
  let l := Nat.max (length ins) (length outs) in
  mix ins io outs oo c = Ok ((gates_of (length ins) + gates_of (length outs) + (if Nat.eqb l 1 then 0 else l + 2 * (l - 1)) + 64 * length outs)%nat,
    mix_gen ins U Y M outs U' Y' M' (pads (length ins) (length outs)) (bitsl (length outs) oo) c).
Proof.
  intros Ni No Hi Ho G Wi Wo.
  pose proof (sm_gen ins io c Ni Hi G) as Q1. pose proof (vals_sized (length ins) io Ni Hi) as Zi. destruct (vals (length ins) io) as [[U Y] M]. cbn [fst snd] in Zi.
  destruct (side_ok (fun _ => True) 0 ins U Y M c Logic.I G Wi Zi) as [sv [iv [G1 [E1 [_ [_ [L1 _]]]]]]]. cbv zeta in G1, E1, L1.
  pose proof (sm_gen outs oo (snd (side_gen ins U Y M c)) No Ho G1) as Q2. pose proof (vals_sized (length outs) oo No Ho) as Zo. destruct (vals (length outs) oo) as [[U' Y'] M']. cbn [fst snd] in Zo.
  assert (Wo1 : Forall (wf_var (nv (snd (side_gen ins U Y M c)))) outs) by (apply (forall_le (nv c)); [apply E1|exact Wo]).
  destruct (side_ok (fun _ => True) 0 outs U' Y' M' _ Logic.I G1 Wo1 Zo) as [sv' [iv' [G2 [E2 [_ [_ [L2 _]]]]]]]. cbv zeta in G2, E2, L2.
  unfold mix, mix_gen. rewrite Q1. destruct (side_gen ins U Y M c) as [mi c1]. cbn [fst snd] in *.
  replace (Nat.ltb 0 (length ins)) with true by (symmetry; apply Nat.ltb_lt; lia). replace (Nat.ltb 0 (length outs)) with true by (symmetry; apply Nat.ltb_lt; lia). cbn [andb orb negb].
  replace (Nat.eqb (length outs) 0) with false by (symmetry; apply Nat.eqb_neq; lia). cbn [bind]. rewrite Q2. clear Q1 Q2. destruct (side_gen outs U' Y' M' c1) as [mo c2]. cbn [fst snd bind] in *.
  destruct Zi as [Zi _]. destruct Zo as [Zo _].
  destruct (alloc_ok (pads (length ins) (length outs)) c2 G2) as [V3 _]. cbv zeta in V3. set (n := length ins) in *. set (m := length outs) in *.
  set (pr := alloc_values (pads n m) c2) in *.
  assert (PD : (if Nat.ltb n m then let (x, y) := pad m mi c2 in (x, mo, y) else let (x, y) := pad n mo c2 in (mi, x, y)) = (padl n m mi (fst pr), padr n m mo (fst pr), snd pr)).
  { unfold pad, padl, padr, pr, pads. clear pr V3. destruct (Nat.ltb_spec n m).
    - replace (Nat.max n m - Nat.min n m)%nat with (m - length mi)%nat by lia. fold (dval (F := F)). clear. destruct (alloc_values _ c2); reflexivity.
    - replace (Nat.max n m - Nat.min n m)%nat with (n - length mo)%nat by lia. fold (dval (F := F)). clear. destruct (alloc_values _ c2); reflexivity. }
  rewrite PD. destruct pr as [pv c3]. cbn [fst snd] in *.
  assert (Lpv : length pv = (Nat.max n m - Nat.min n m)%nat) by (rewrite V3, fresh_length; unfold pads; apply repeat_length).
  destruct (pad_lengths n m mi mo pv) as [P1 P2]; [lia|lia|exact Lpv|].
  assert (SH : mix_shuffle_gadget (padl n m mi pv) (padr n m mo pv) c3 = Ok ((if Nat.eqb (Nat.max n m) 1 then 0 else Nat.max n m + 2 * (Nat.max n m - 1))%nat, last_gadget (padl n m mi pv) (padr n m mo pv) c3)).
  { unfold mix_shuffle_gadget. rewrite P1, P2, Nat.eqb_refl. cbn [negb]. destruct (padl n m mi pv) as [|a [|b l]]; [cbn in P1; lia| |].
    - destruct (padr n m mo pv) as [|p l]; [cbn in P1, P2; lia|]. rewrite <- P1. reflexivity.
    - replace (Nat.eqb (Nat.max n m) 1) with false by (symmetry; apply Nat.eqb_neq; cbn in P1; lia). destruct (padr n m mo pv); reflexivity. }
  rewrite SH. cbn [bind fst snd]. rewrite ranges_all by exact Ho. fold m. unfold gates_of, bitsl. reflexivity.
Qed.

(** ** Shapes *)
Lemma shape_specify k c c' : same_shape c c' -> same_shape (specify k c) (specify k c').
Proof. intros [A [B [C0 [D E]]]]. unfold specify, same_shape. cbn. rewrite A, B, C0, D, E. auto. Qed.
Lemma shape_side vars (U Y M U' Y' M' : list mval) c c' : same_shape c c' -> length U = length U' -> length Y = length Y' -> length M = length M' ->
  fst (side_gen vars U Y M c) = fst (side_gen vars U' Y' M' c') /\ same_shape (snd (side_gen vars U Y M c)) (snd (side_gen vars U' Y' M' c')).
Proof.
  intros H L1 L2 L3. unfold side_gen.
  destruct (alloc_shape U U' c c' H L1) as [E1 H1]. destruct (alloc_values U c) as [sv c1], (alloc_values U' c') as [sv' c1']. cbn [fst snd] in *. subst sv'.
  destruct (alloc_shape Y Y' c1 c1' H1 L2) as [E2 H2]. destruct (alloc_values Y c1) as [iv c2], (alloc_values Y' c1') as [iv' c2']. cbn [fst snd] in *. subst iv'.
  destruct (alloc_shape M M' c2 c2' H2 L3) as [E3 H3]. destruct (alloc_values M c2) as [mv c3], (alloc_values M' c2') as [mv' c3']. cbn [fst snd] in *. subst mv'.
  split; [reflexivity|]. generalize (side_items vars sv iv mv). intros gs. revert c3 c3' H3. induction gs as [|g gs IH]; intros c3 c3' H3; cbn; [exact H3|]. apply IH. now apply shape_specify.
Qed.
Lemma shape_range_loop : forall (b b' : list bool) (e : F) var c c', same_shape c c' -> length b = length b' ->
  fst (range_loop b e var c) = fst (range_loop b' e var c') /\ same_shape (snd (range_loop b e var c)) (snd (range_loop b' e var c')).
Proof.
  induction b as [|x b IH]; intros [|x' b'] e var c c' H L; try discriminate L; cbn [range_loop]; [auto|]. unfold allocate_multiplier.
  assert (E : nv c = nv c') by apply H. rewrite <- E. apply IH; [|now injection L]. do 2 apply shape_con. destruct H as [_ [B [C0 [D X]]]]. unfold same_shape. cbn. rewrite B, C0, D, X. auto.
Qed.
Lemma shape_ranges : forall outs (b b' : list (list bool)) c c', same_shape c c' -> map (@length _) b = map (@length _) b' -> same_shape (ranges outs b c) (ranges outs b' c').
Proof.
  induction outs as [|o outs IH]; intros [|x b] [|x' b'] c c' H L; try discriminate L; cbn [ranges]; auto. injection L as L1 L2.
  destruct (shape_range_loop x x' 1 (lvar (v_amount o)) c c' H L1) as [E U]. destruct (range_loop x 1 (lvar (v_amount o)) c) as [v c1], (range_loop x' 1 (lvar (v_amount o)) c') as [v' c1']. cbn [fst snd] in *. subst v'.
  apply IH; [now apply shape_con|exact L2].
Qed.
Lemma shape_last a b c c' : same_shape c c' -> same_shape (last_gadget a b c) (last_gadget a b c').
Proof. intros H. unfold last_gadget. destruct a as [|a0 [|a1 a]]; [now apply shape_specify| |now apply shape_specify]. destruct b; [now apply shape_specify|]. now do 2 apply shape_con. Qed.
Lemma sized_lengths n (U Y M U' Y' M' : list mval) : sized n U Y M -> sized n U' Y' M' -> length U = length U' /\ length Y = length Y' /\ length M = length M'.
Proof. intros [A [[A1 [-> ->]]|[A1 [A2 A3]]]] [B [[B1 [-> ->]]|[B1 [B2 B3]]]]; cbn; lia. Qed.
Lemma shape_gen ins outs (U Y M U' Y' M' P T J K T' J' K' Q : list mval) (b b' : list (list bool)) c c' : same_shape c c' ->
  sized (length ins) U Y M -> sized (length ins) T J K -> sized (length outs) U' Y' M' -> sized (length outs) T' J' K' -> length P = length Q -> map (@length _) b = map (@length _) b' ->
  same_shape (mix_gen ins U Y M outs U' Y' M' P b c) (mix_gen ins T J K outs T' J' K' Q b' c').
Proof.
  intros H Z1 Z2 Z3 Z4 LP LB. unfold mix_gen.
  destruct (sized_lengths _ _ _ _ _ _ _ Z1 Z2) as [A1 [A2 A3]]. destruct (sized_lengths _ _ _ _ _ _ _ Z3 Z4) as [B1 [B2 B3]].
  destruct (shape_side ins U Y M T J K c c' H A1 A2 A3) as [E1 H1]. destruct (side_gen ins U Y M c) as [mi c1], (side_gen ins T J K c') as [mi' c1']. cbn [fst snd] in *. subst mi'.
  destruct (shape_side outs U' Y' M' T' J' K' c1 c1' H1 B1 B2 B3) as [E2 H2]. destruct (side_gen outs U' Y' M' c1) as [mo c2], (side_gen outs T' J' K' c1') as [mo' c2']. cbn [fst snd] in *. subst mo'.
  destruct (alloc_shape P Q c2 c2' H2 LP) as [E3 H3]. destruct (alloc_values P c2) as [pv c3], (alloc_values Q c2') as [pv' c3']. cbn [fst snd] in *. subst pv'.
  apply shape_ranges; [now apply shape_last|exact LB].
Qed.

(** ** The systems of both parties *)
Lemma good_empty : good (empty (F := F)). Proof. constructor; cbn; auto. Qed.
Definition committed (ins outs : list mval) : list mvar * list mvar * cs :=
  let (iv, c1) := alloc_values ins empty in let (ov, c2) := alloc_values outs c1 in (iv, ov, c2).
Lemma committed_ok ins outs : let '(iv, ov, c) := committed ins outs in
  good c /\ Forall (wf_var (nv c)) iv /\ Forall (wf_var (nv c)) ov /\ length iv = length ins /\ length ov = length outs /\
  map (rec (wval c)) iv = ins /\ map (rec (wval c)) ov = outs /\ defer c = [] /\ lin c = [] /\ muls c = [] /\ next c = 0%nat /\
  iv = fresh 0 (length ins) /\ ov = fresh (2 * length ins) (length outs).
Proof.
  unfold committed. destruct (alloc_ok ins empty good_empty) as [V1 [G1 [E1 [D1 [N1 R1]]]]]. cbv zeta in *. destruct (alloc_values ins empty) as [iv c1]. cbn [fst snd] in *.
  destruct (alloc_ok outs c1 G1) as [V2 [G2 [E2 [D2 [N2 R2]]]]]. cbv zeta in *. destruct (alloc_values outs c1) as [ov c2]. cbn [fst snd] in *.
  assert (D := wider_trans _ _ _ D1 D2). destruct D as [Da [Db [Dc Dd]]]. cbn in N1.
  assert (W1 : Forall (wf_var (nv c1)) iv) by (rewrite V1; apply fresh_wf; cbn; lia).
  conj; auto.
  - apply (forall_le (nv c1)); [apply E2|exact W1].
  - rewrite V2. apply fresh_wf. lia.
  - rewrite V1. apply fresh_length.
  - rewrite V2. apply fresh_length.
  - rewrite <- R1. now apply recs_ext.
  - rewrite V2, N1. reflexivity.
Qed.
Lemma shape_committed (a b a' b' : list mval) : length a = length a' -> length b = length b' ->
  let '(iv, ov, c) := committed a b in let '(iv', ov', c') := committed a' b' in iv = iv' /\ ov = ov' /\ same_shape c c'.
Proof.
  intros La Lb. unfold committed. destruct (alloc_shape a a' empty empty) as [E1 H1]; [repeat split|exact La|]. destruct (alloc_values a empty) as [iv c1], (alloc_values a' empty) as [iv' c1']. cbn [fst snd] in *.
  destruct (alloc_shape b b' c1 c1' H1 Lb) as [E2 H2]. destruct (alloc_values b c1) as [ov c2], (alloc_values b' c1') as [ov' c2']. cbn [fst snd] in *. auto.
Qed.
Lemma verifier_eq n m : (1 <= n)%nat -> (1 <= m)%nat ->
  let '(iv, ov, c) := committed (repeat dval n) (repeat dval m) in
  let '(U, Y, M) := vals n None in let '(U', Y', M') := vals m None in
  verifier_system (F := F) n m = Ok (iv, ov, mix_gen iv U Y M ov U' Y' M' (pads n m) (bitsl m None) c).
Proof.
  intros Hn Hm. pose proof (committed_ok (repeat dval n) (repeat dval m)) as K. unfold committed in *. unfold verifier_system.
  destruct (alloc_values (repeat dval n) empty) as [iv c1]. destruct (alloc_values (repeat dval m) c1) as [ov c].
  destruct K as [G [Wi [Wo [Li [Lo _]]]]]. rewrite repeat_length in Li, Lo.
  pose proof (mix_is_gen iv None ov None c) as Q. rewrite Li, Lo in Q. specialize (Q Hn Hm Logic.I Logic.I G Wi Wo).
  destruct (vals n None) as [[U Y] M], (vals m None) as [[U' Y'] M']. cbv zeta in Q. rewrite Q. reflexivity.
Qed.
Lemma bits64 m : Forall (fun b => length b = 64%nat) (bitsl m None).
Proof. unfold bitsl. apply Forall_forall. intros b Hb. apply repeat_spec in Hb. subst b. apply repeat_length. Qed.
Lemma pads_length n m : length (pads n m) = (Nat.max n m - Nat.min n m)%nat. Proof. apply repeat_length. Qed.

(** Soundness: an accepted mix gives values in the relation. *)
Theorem mix_sound C (x0 : F) ins outs : C x0 -> (1 <= length ins)%nat -> (1 <= length outs)%nat ->
  can_mix (fun ch => forall i, C (ch i)) ins outs ->
  exists U Y M U' Y' M' P, sized (length ins) U Y M /\ sized (length outs) U' Y' M' /\ length P = (Nat.max (length ins) (length outs) - Nat.min (length ins) (length outs))%nat /\
    mixrel C ins outs U Y M U' Y' M' P /\ Forall is64 outs.
Proof.
  intros C0 Ni No [iv [ov [c' [w [EV [Ri [Ro Acc]]]]]]].
  pose proof (verifier_eq (length ins) (length outs) Ni No) as Q. pose proof (committed_ok (repeat dval (length ins)) (repeat dval (length outs))) as K.
  destruct (committed (repeat dval (length ins)) (repeat dval (length outs))) as [[iv0 ov0] c]. destruct K as [G [Wi [Wo [Li [Lo _]]]]]. rewrite repeat_length in Li, Lo.
  pose proof (vals_sized (length ins) None Ni Logic.I) as Zi. pose proof (vals_sized (length outs) None No Logic.I) as Zo.
  destruct (vals (length ins) None) as [[U Y] M], (vals (length outs) None) as [[U' Y'] M']. cbn [fst snd] in Zi, Zo.
  rewrite Q in EV. injection EV as <- <- <-.
  destruct (gen_ok C x0 iv0 ov0 U Y M U' Y' M' (pads (length ins) (length outs)) (bitsl (length outs) None) c C0 G Wi Wo) as [G1 [E1 [X1 [SD _]]]];
    try (rewrite ?Li, ?Lo; assumption); [rewrite Li, Lo; apply pads_length|rewrite Lo; apply repeat_length|apply bits64|]. cbv zeta in *.
  destruct (finish_sound C _ w x0 G1 C0 Acc) as [Sw It]. destruct (SD w Sw It) as [T [J [L [T' [J' [L' [P [Z1 [Z2 [LP [MR R64]]]]]]]]]]].
  rewrite Li in Z1. rewrite Lo in Z2. rewrite Ri, Ro in MR. rewrite Ro in R64. rewrite pads_length in LP.
  exists T, J, L, T', J', L', P. auto.
Qed.
(** Completeness: values in the relation are accepted. *)
Theorem mix_complete (allowed : (nat -> F) -> Prop) ins outs U Y M U' Y' M' P : (1 <= length ins)%nat -> (1 <= length outs)%nat ->
  sized (length ins) U Y M -> sized (length outs) U' Y' M' -> length P = (Nat.max (length ins) (length outs) - Nat.min (length ins) (length outs))%nat ->
  mixrel (fun _ => True) ins outs U Y M U' Y' M' P -> Forall is64 outs -> can_mix allowed ins outs.
Proof.
  intros Ni No Zi Zo LP MR R64.
  pose proof (verifier_eq (length ins) (length outs) Ni No) as Q. pose proof (committed_ok ins outs) as K. pose proof (shape_committed ins outs (repeat dval (length ins)) (repeat dval (length outs))) as Sh.
  rewrite !repeat_length in Sh. specialize (Sh eq_refl eq_refl).
  destruct (committed ins outs) as [[iv ov] c]. destruct K as [G [Wi [Wo [Li [Lo [Ri [Ro [Dc [Lc [Mc _]]]]]]]]]].
  destruct (committed (repeat dval (length ins)) (repeat dval (length outs))) as [[iv0 ov0] c0]. destruct Sh as [-> [-> Sh]].
  pose proof (vals_sized (length ins) None Ni Logic.I) as Zi0. pose proof (vals_sized (length outs) None No Logic.I) as Zo0.
  destruct (vals (length ins) None) as [[T J] L], (vals (length outs) None) as [[T' J'] L']. cbn [fst snd] in Zi0, Zo0.
  set (bits := map (fun v : mval => bits_of (amount v)) outs).
  destruct (gen_ok (fun _ => True) 0 iv0 ov0 U Y M U' Y' M' P bits c Logic.I G Wi Wo) as [G1 [E1 [X1 [_ CP]]]];
    try (rewrite ?Li, ?Lo; assumption); [unfold bits; rewrite Lo; apply map_length|unfold bits; apply Forall_forall; intros b Hb; apply in_map_iff in Hb; destruct Hb as [v [<- _]]; apply bits_of_length|]. cbv zeta in *.
  rewrite Ri, Ro in CP. destruct CP as [Sw It]; auto; [unfold sat; rewrite Lc, Mc; auto|].
  set (c1 := mix_gen iv0 U Y M ov0 U' Y' M' P bits c) in *.
  assert (Sh1 : same_shape c1 (mix_gen iv0 T J L ov0 T' J' L' (pads (length ins) (length outs)) (bitsl (length outs) None) c0)).
  { apply shape_gen; rewrite ?Li, ?Lo; auto; [rewrite pads_length; exact LP|]. unfold bits, bitsl. rewrite map_map. rewrite (map_ext _ (fun _ => 64%nat)) by (intros; apply bits_of_length).
    clear. induction outs as [|o outs IH]; [reflexivity|]. cbn [length repeat map]. now rewrite IH. }
  exists iv0, ov0, (mix_gen iv0 T J L ov0 T' J' L' (pads (length ins) (length outs)) (bitsl (length outs) None) c0), (wval c1).
  conj; [exact Q| | |].
  - rewrite <- Ri. apply recs_ext; assumption.
  - rewrite <- Ro. apply recs_ext; assumption.
  - intros ch _. destruct (finish_complete ch c1 G1 Sw It) as [SF EF]. exists (wval (finish ch c1)). split.
    + intros i Hi. apply EF. destruct Sh1 as [-> _]. exact Hi.
    + apply (shape_sat _ _ _ (shape_finish ch _ _ Sh1)). exact SF.
Qed.
(** The honest prover's own system. *)
Theorem prover_complete ch ins outs : (1 <= length ins)%nat -> (1 <= length outs)%nat -> same_types ins outs = true ->
  (let '(U, Y, M) := vals (length ins) (Some ins) in let '(U', Y', M') := vals (length outs) (Some outs) in
   mixrel (fun _ => True) ins outs U Y M U' Y' M' (pads (length ins) (length outs))) -> Forall is64 outs ->
  exists iv ov c cv, prover_system ins outs = Ok (iv, ov, c) /\ verifier_system (F := F) (length ins) (length outs) = Ok (iv, ov, cv) /\
    map (rec (wval c)) iv = ins /\ map (rec (wval c)) ov = outs /\ same_shape (finish ch c) (finish ch cv) /\
    sat (finish ch c) (wval (finish ch c)).
Proof.
  intros Ni No ST MR R64.
  pose proof (verifier_eq (length ins) (length outs) Ni No) as Q. pose proof (committed_ok ins outs) as K. pose proof (shape_committed ins outs (repeat dval (length ins)) (repeat dval (length outs))) as Sh.
  rewrite !repeat_length in Sh. specialize (Sh eq_refl eq_refl). unfold prover_system. rewrite ST. cbn [negb]. unfold committed in K, Sh at 1.
  destruct (alloc_values ins empty) as [iv c1]. destruct (alloc_values outs c1) as [ov c]. destruct K as [G [Wi [Wo [Li [Lo [Ri [Ro [Dc [Lc [Mc _]]]]]]]]]].
  destruct (committed (repeat dval (length ins)) (repeat dval (length outs))) as [[iv0 ov0] c0]. destruct Sh as [-> [-> Sh]].
  pose proof (vals_sized (length ins) None Ni Logic.I) as Zi0. pose proof (vals_sized (length outs) None No Logic.I) as Zo0.
  pose proof (vals_sized (length ins) (Some ins) Ni eq_refl) as Zi. pose proof (vals_sized (length outs) (Some outs) No eq_refl) as Zo.
  pose proof (mix_is_gen iv0 (Some ins) ov0 (Some outs) c) as X. rewrite Li, Lo in X. specialize (X Ni No eq_refl eq_refl G Wi Wo).
  destruct (vals (length ins) None) as [[T J] L], (vals (length outs) None) as [[T' J'] L']. destruct (vals (length ins) (Some ins)) as [[U Y] M], (vals (length outs) (Some outs)) as [[U' Y'] M']. cbn [fst snd] in *. cbv zeta in X.
  rewrite X. cbn [rmap snd]. set (bits := bitsl (length outs) (Some outs)) in *.
  assert (B64 : Forall (fun b => length b = 64%nat) bits) by (unfold bits; apply Forall_forall; intros b Hb; apply in_map_iff in Hb; destruct Hb as [v [<- _]]; apply bits_of_length).
  destruct (gen_ok (fun _ => True) 0 iv0 ov0 U Y M U' Y' M' (pads (length ins) (length outs)) bits c Logic.I G Wi Wo) as [G1 [E1 [X1 [_ CP]]]];
    try (rewrite ?Li, ?Lo; assumption); try exact B64; try (rewrite Li, Lo; apply pads_length); try (unfold bits; rewrite Lo; apply map_length). cbv zeta in *.
  rewrite Ri, Ro in CP. destruct CP as [Sw It]; auto; [unfold sat; rewrite Lc, Mc; auto|].
  set (c2 := mix_gen iv0 U Y M ov0 U' Y' M' (pads (length ins) (length outs)) bits c) in *.
  assert (Sh1 : same_shape c2 (mix_gen iv0 T J L ov0 T' J' L' (pads (length ins) (length outs)) (bitsl (length outs) None) c0)).
  { apply shape_gen; rewrite ?Li, ?Lo; auto. unfold bits, bitsl. rewrite map_map. rewrite (map_ext _ (fun _ => 64%nat)) by (intros; apply bits_of_length).
    clear. induction outs as [|o outs IH]; [reflexivity|]. cbn [length repeat map]. now rewrite IH. }
  exists iv0, ov0, c2. eexists. split; [reflexivity|]. split; [exact Q|].
  destruct (finish_complete ch c2 G1 Sw It) as [SF EF]. conj; auto.
  - rewrite <- Ri. apply recs_ext; assumption.
  - rewrite <- Ro. apply recs_ext; assumption.
  - now apply shape_finish.
Qed.
End Top.
