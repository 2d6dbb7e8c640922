(** The helper functions of the PLONK prover compute what their comments say. *)
From Coq Require Import List Arith NArith ZArith Lia Bool Permutation Field Ring.
From Verif Require Import Base Field PField Power TurboModel PermModel PermProofs PolyModel PolySpec PolyProofs PolyLemmas PolyFft PolyProps KzgModel KzgSpec KzgProofs PlonkModel PlonkPoly.
Import ListNotations.
Local Open Scope F_scope.

Section Basic.
Lemma mapM_pure {A B} (f : A -> res B) (g : A -> B) l : (forall a, In a l -> f a = Ok (g a)) -> mapM f l = Ok (map g l).
Proof.
  induction l as [|a l IH]; intros H; [reflexivity|]. cbn [mapM map]. rewrite (H a (or_introl eq_refl)). cbn [bind]. rewrite IH by (intros; apply H; now right). reflexivity.
Qed.
Lemma idx_nth {A} (l : list A) i d : (i < length l)%nat -> idx l i = Ok (nth i l d).
Proof. intros H. unfold idx. rewrite (nth_error_nth' l d H). reflexivity. Qed.
End Basic.

Section Helpers.
Context {F : PField}.
Add Field Fph : (f_th F).
Implicit Types (p q : list F) (x w : F).

Lemma normal_len p l : normal p -> (1 <= l)%nat -> (forall i, (l <= i)%nat -> coef p i = 0) -> (length p <= l)%nat.
Proof.
  intros [->|[N La]] Hl Z; [cbn; lia|]. destruct (Nat.le_gt_cases (length p) l) as [H|H]; [exact H|exfalso].
  apply La. rewrite last_coef by exact N. apply Z. lia.
Qed.
Lemma add_coef_full p c order : p <> [] -> exists q, add_coef p c order = Ok q /\ normal q /\
  (length q <= Nat.max (length p) (S order))%nat /\ forall x, hv q x = hv p x + c * fpow x order.
Proof.
  intros N. destruct (add_coef_ok p c order (or_introl N)) as [q [E C]]. exists q. split; [exact E|].
  assert (Nq : normal q).
  { unfold add_coef in E. destruct (Nat.ltb _ _) eqn:X; [|discriminate]. apply Ok_inj in E. subst q. apply trim_normal.
    apply Nat.ltb_lt in X. destruct (push_zeroes _ _ _) as [|a l] eqn:Y; [cbn in X; lia|]. destruct order; discriminate. }
  split; [exact Nq|]. split.
  - apply normal_len; [exact Nq|lia|]. intros i Hi. rewrite C. rewrite coef_out by lia. destruct (Nat.eqb_spec i order); [lia|ring].
  - intros x. rewrite (hv_lin p (repeat 0 order ++ [c]) q 1 1).
    + rewrite hv_app, hv_zeroes, repeat_length. cbn [hv]. ring.
    + intros i. rewrite C. unfold coef. destruct (Nat.eqb_spec i order) as [->|Hn].
      * rewrite app_nth2 by (rewrite repeat_length; lia). rewrite repeat_length, Nat.sub_diag. cbn [nth]. ring.
      * destruct (Nat.lt_ge_cases i order) as [l|g].
        -- rewrite app_nth1 by (rewrite repeat_length; lia). rewrite nth_repeat. ring.
        -- rewrite (nth_overflow (repeat 0 order ++ [c])) by (rewrite app_length, repeat_length; cbn; lia). ring.
Qed.
Lemma hide_loop_ok z : forall blinds i p, p <> [] -> exists q, hide_loop blinds i z p = Ok q /\ q <> [] /\
  (length q <= Nat.max (length p) (z + i + length blinds))%nat /\
  forall x, hv q x = hv p x + fpow x i * (1 - fpow x z) * hv blinds x.
Proof.
  induction blinds as [|b bs IH]; intros i p N; cbn [hide_loop].
  - exists p. split; [reflexivity|]. split; [exact N|]. split; [lia|]. intros x. cbn [hv]. ring.
  - destruct (add_coef_full p b i N) as [p1 [E1 [N1 [L1 V1]]]]. rewrite E1. cbn [bind].
    destruct (add_coef_full p1 (fopp b) (z + i) (normal_nonempty _ N1)) as [p2 [E2 [N2 [L2 V2]]]]. rewrite E2. cbn [bind].
    destruct (IH (S i) p2 (normal_nonempty _ N2)) as [q [E [Nq [Lq V]]]]. exists q. split; [exact E|]. split; [exact Nq|]. split; [cbn [length]; lia|].
    intros x. rewrite V, V2, V1, fpow_add. cbn [hv fpow]. ring.
Qed.
Lemma hide_ok blinds p z : p <> [] -> exists q, hide_polynomial blinds p z = Ok q /\ q <> [] /\
  (length q <= Nat.max (length p) (z + length blinds))%nat /\ forall x, hv q x = hv p x + (1 - fpow x z) * hv blinds x.
Proof.
  intros N. destruct (hide_loop_ok z blinds 0 p N) as [q [E [Nq [L V]]]]. exists q. split; [exact E|]. split; [exact Nq|]. split; [lia|].
  intros x. rewrite V. cbn [fpow]. ring.
Qed.

(** The group in order. *)
Lemma build_loop_ok n w : primitive n w -> forall k i, (i + k = n)%nat -> (0 < i)%nat ->
  build_loop k w (fpow w i) = Ok (map (fun j => fpow w j) (seq i k)).
Proof.
  intros P. induction k as [|k IH]; intros i E Hi; cbn [build_loop].
  - destruct (feqb_spec (fpow w i) 1) as [_|X]; [reflexivity|]. exfalso. apply X. replace i with n by lia. apply P.
  - destruct (feqb_spec (fpow w i) 1) as [X|_]; [exfalso; apply (proj2 P i); [lia|exact X]|].
    replace (fpow w i * w) with (fpow w (S i)) by (cbn [fpow]; ring). rewrite IH by lia. reflexivity.
Qed.
Lemma build_group_ok n w : (0 < n)%nat -> primitive n w -> build_group w n = Ok (powers w n).
Proof.
  intros Pn P. unfold build_group. replace w with (fpow w 1) at 2 by (cbn [fpow]; ring).
  rewrite (build_loop_ok n w P (n - 1) 1) by lia. cbn [bind]. unfold powers. destruct n; [lia|]. cbn [seq map]. rewrite Nat.sub_succ, Nat.sub_0_r. reflexivity.
Qed.
Lemma powers_len w n : length (powers w n) = n. Proof. unfold powers. now rewrite map_length, seq_length. Qed.
Lemma powers_nth w n i : (i < n)%nat -> nth i (powers w n) 0 = fpow w i. Proof. intros H. unfold powers. now apply map_nth_vals. Qed.

(** Position [pi] of the five columns as a group element: k_j w^i for pi = j n + i. *)
Definition position n w (ks : list F) (pi : nat) : F := nth (pi / n) ks 0 * fpow w (pi mod n).
Lemma enc_loop_ok pi n (group : list F) (other : F) : (0 < n)%nat -> forall (ks : list F) i, (1 <= i)%nat ->
  enc_loop pi n i group ks other = if Nat.leb i (pi / n) && Nat.ltb (pi / n) (i + length ks) then nth (pi / n - i) ks 0 * nth (pi mod n) group 0 else other.
Proof.
  intros Pn. pose proof (Nat.div_mod pi n ltac:(lia)) as D. pose proof (Nat.mod_upper_bound pi n ltac:(lia)) as M. set (d := (pi / n)%nat) in *. set (r := (pi mod n)%nat) in *.
  induction ks as [|k ks IH]; intros i Hi; cbn [enc_loop length].
  - destruct (Nat.leb_spec i d), (Nat.ltb_spec d (i + 0)); cbn [andb]; try reflexivity; lia.
  - fold r. destruct (Nat.ltb_spec pi ((i + 1) * n)) as [A|A], (Nat.leb_spec (i * n) pi) as [B|B]; cbn [andb].
    + assert (d = i) by nia. subst i. rewrite Nat.leb_refl, Nat.sub_diag. destruct (Nat.ltb_spec d (d + S (length ks))); [reflexivity|lia].
    + rewrite IH by lia. assert (d < i)%nat by nia. destruct (Nat.leb_spec (S i) d), (Nat.leb_spec i d); cbn [andb]; try lia; reflexivity.
    + rewrite IH by lia. assert (i < d)%nat by nia. destruct (Nat.leb_spec (S i) d), (Nat.leb_spec i d); try lia; cbn [andb].
      replace (S i + length ks)%nat with (i + S (length ks))%nat by lia. destruct (Nat.ltb _ _); [|reflexivity]. replace (d - i)%nat with (S (d - S i)) by lia. reflexivity.
    + nia.
Qed.
Lemma encode_ok n w ks pi : (0 < n)%nat -> length ks = 5%nat -> nth 0 ks 0 = 1 -> (pi < 5 * n)%nat -> encode_perm (powers w n) ks pi = position n w ks pi.
Proof.
  intros Pn L K H. unfold encode_perm. rewrite powers_len, enc_loop_ok by lia. rewrite skipn_length, L. unfold position.
  pose proof (Nat.div_mod pi n ltac:(lia)) as D. pose proof (Nat.mod_upper_bound pi n ltac:(lia)) as M. rewrite powers_nth by exact M.
  assert (Hd : (pi / n < 5)%nat) by (apply Nat.div_lt_upper_bound; lia). destruct (Nat.leb_spec 1 (pi / n)); cbn [andb].
  - destruct (Nat.ltb_spec (pi / n) (1 + (5 - 1))); [|lia]. destruct ks as [|k0 ks]; [discriminate|]. cbn [skipn]. destruct (pi / n)%nat; [lia|]. cbn [nth]. now rewrite Nat.sub_succ, Nat.sub_0_r.
  - replace (pi / n)%nat with 0%nat by lia. rewrite K. ring.
Qed.
Lemma p_of_x_ok n w ks pi : (0 < n)%nat -> length ks = 5%nat -> nth 0 ks 0 = 1 -> (pi < 5 * n)%nat -> p_of_x n (powers w n) ks pi = position n w ks pi.
Proof.
  intros Pn L K H. unfold p_of_x. rewrite enc_loop_ok by lia. rewrite skipn_length, L. unfold position.
  pose proof (Nat.div_mod pi n ltac:(lia)) as D. pose proof (Nat.mod_upper_bound pi n ltac:(lia)) as M.
  assert (Hd : (pi / n < 5)%nat) by (apply Nat.div_lt_upper_bound; lia). destruct (Nat.leb_spec 1 (pi / n)); cbn [andb].
  - rewrite powers_nth by exact M. destruct (Nat.ltb_spec (pi / n) (1 + (5 - 1))); [|lia]. destruct ks as [|k0 ks]; [discriminate|]. cbn [skipn]. destruct (pi / n)%nat; [lia|]. cbn [nth]. now rewrite Nat.sub_succ, Nat.sub_0_r.
  - assert (Z : (pi / n = 0)%nat) by lia. rewrite Z in *. rewrite Nat.mod_small by lia. rewrite powers_nth by lia. reflexivity.
Qed.

(** Splitting the quotient: whatever the random numbers, the chunks recombine. *)
Fixpoint recombine (x : F) (n : nat) (ts : list (list F)) : F :=
  match ts with [] => 0 | t :: ts' => hv t x + fpow x n * recombine x n ts' end.
Lemma firstn_skipn_hv n p x : hv p x = hv (firstn n p) x + fpow x (length (firstn n p)) * hv (skipn n p) x.
Proof. rewrite <- (firstn_skipn n p) at 1. apply hv_app. Qed.
Lemma hv_set n (c : F) : forall p x, (n < length p)%nat -> hv (PolyModel.set n (nth n p 0 + c) p) x = hv p x + c * fpow x n.
Proof.
  intros p x. revert n. induction p as [|a p IH]; intros [|n] H; cbn [length] in H; try lia; cbn [PolyModel.set nth hv fpow]; [ring|]. rewrite IH by lia. ring.
Qed.
Lemma split_t_ok n x : (0 < n)%nat -> forall rands t prev, rands <> [] ->
  recombine x n (split_t t n rands prev) = hv t x - prev.
Proof.
  intros Pn. induction rands as [|r rands IH]; intros t prev N; [now destruct N|]. destruct rands as [|r2 rands].
  - cbn [split_t recombine]. unfold from_coefs. rewrite trim_hv. destruct t; cbn [hv]; ring.
  - change (split_t t n (r :: r2 :: rands) prev) with (from_coefs (match PolyModel.set n (nth n (firstn n t ++ repeat 0 (n + 1 - length (firstn n t))) 0 + r) (firstn n t ++ repeat 0 (n + 1 - length (firstn n t))) with [] => [] | c :: l => c - prev :: l end) :: split_t (skipn n t) n (r2 :: rands) r).
    set (padded := firstn n t ++ repeat 0 (n + 1 - length (firstn n t))).
    assert (Lp : length padded = S n) by (unfold padded; rewrite app_length, repeat_length, firstn_length; lia).
    cbn [recombine]. rewrite IH by discriminate. unfold from_coefs. rewrite trim_hv.
    assert (E : hv (match PolyModel.set n (nth n padded 0 + r) padded with [] => [] | c :: l => c - prev :: l end) x = hv (firstn n t) x + r * fpow x n - prev).
    { transitivity (hv (PolyModel.set n (nth n padded 0 + r) padded) x - prev).
      - destruct (PolyModel.set n (nth n padded 0 + r) padded) as [|c l] eqn:Es; [apply (f_equal (@length _)) in Es; rewrite set_len in Es; cbn in Es; lia|]. cbn [hv]. ring.
      - rewrite hv_set by lia. unfold padded. rewrite hv_app, hv_zeroes. ring. }
    rewrite E. rewrite (firstn_skipn_hv n t x). destruct (Nat.le_gt_cases n (length t)) as [H|H].
    + rewrite firstn_length, Nat.min_l by exact H. ring.
    + rewrite skipn_all2 by lia. cbn [hv]. ring.
Qed.
Lemma split_t_len n : (0 < n)%nat -> forall rands t prev, length (split_t t n rands prev) = length rands /\
  forall p, In p (split_t t n rands prev) -> normal p /\ (length p <= Nat.max (n + 1) (length t - (length rands - 1) * n))%nat.
Proof.
  intros Pn. induction rands as [|r rands IH]; intros t prev; [split; [reflexivity|intros p []]|]. destruct rands as [|r2 rands].
  - cbn [split_t length]. split; [reflexivity|]. intros p [<-|[]]. split; [apply trim_normal; now destruct t|]. etransitivity; [apply trim_len|]. destruct t; cbn [length]; lia.
  - destruct (IH (skipn n t) r) as [L A].
    change (split_t t n (r :: r2 :: rands) prev) with (from_coefs (match PolyModel.set n (nth n (firstn n t ++ repeat 0 (n + 1 - length (firstn n t))) 0 + r) (firstn n t ++ repeat 0 (n + 1 - length (firstn n t))) with [] => [] | c :: l => c - prev :: l end) :: split_t (skipn n t) n (r2 :: rands) r).
    set (padded := firstn n t ++ repeat 0 (n + 1 - length (firstn n t))).
    assert (Lp : length padded = S n) by (unfold padded; rewrite app_length, repeat_length, firstn_length; lia).
    split; [cbn [length] in *; now rewrite L|]. intros p [<-|I].
    + destruct (PolyModel.set n (nth n padded 0 + r) padded) as [|c l] eqn:Es; pose proof (set_len n (nth n padded 0 + r) padded) as Ls; rewrite Es in Ls; cbn [length] in Ls; [lia|].
      split; [apply trim_normal; discriminate|]. etransitivity; [apply trim_len|]. cbn [length]. lia.
    + destruct (A p I) as [Np Hp]. split; [exact Np|]. rewrite skipn_length in Hp. cbn [length] in *. nia.
Qed.

End Helpers.
