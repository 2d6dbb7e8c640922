(** The grand product, the public-input polynomial and the Lagrange constants. *)
From Coq Require Import List Arith NArith ZArith Lia Bool Permutation Field Ring.
From Verif Require Import Base Field PField Power TurboModel TurboSpec PermModel PermSpec PermProofs PermProps PolyModel PolySpec PolyProofs PolyLemmas PolyFft PolyProps KzgModel KzgSpec KzgProofs PlonkModel PlonkPoly PlonkProofs PlonkCore.
Import ListNotations.
Local Open Scope F_scope.

(** ** The grand product *)
Section Five.
Context {F : PField} (n : nat).
Add Field Fgf : (f_th F).
Lemma fprod_five (f : nat -> F) : fprod (map (fun i => five (fun j => f (j * n + i)%nat)) (seq 0 n)) = fprod (map f (seq 0 (5 * n))).
Proof.
  unfold five. rewrite !fprod_mul. replace (5 * n)%nat with (n + (n + (n + (n + n))))%nat by lia. rewrite !seq_app, !map_app, !fprod_app.
  assert (X : forall j l k, fprod (map (fun i => f (j * n + i)%nat) (seq l k)) = fprod (map f (seq (j * n + l) k))).
  { intros j l k. revert l. induction k as [|k IH]; intros l; [reflexivity|]. cbn [seq map]. rewrite !fprod_cons, IH. do 3 f_equal. f_equal. lia. }
  rewrite !X. replace (0 * n + 0)%nat with 0%nat by lia. replace (1 * n + 0)%nat with (0 + n)%nat by lia. replace (2 * n + 0)%nat with (0 + n + n)%nat by lia.
  replace (3 * n + 0)%nat with (0 + n + n + n)%nat by lia. replace (4 * n + 0)%nat with (0 + n + n + n + n)%nat by lia. ring.
Qed.
Lemma position_at (om : F) ks j i : (i < n)%nat -> position n om ks (j * n + i) = nth j ks 0 * fpow om i.
Proof.
  intros H. unfold position. rewrite Nat.add_comm, Nat.div_add, Nat.div_small, Nat.mod_add, Nat.mod_small by lia. reflexivity.
Qed.
End Five.

Section Grand.
Context {F : PField}.
Add Field Fgr : (f_th F).
Context (n : nat) (om : F) (ks : list F) (w : list F) (perm : list nat) (b g : F).
Hypothesis (Pn : (0 < n)%nat) (Lk : length ks = 5%nat) (K0 : nth 0 ks 0 = 1) (Lw : length w = (5 * n)%nat).
Let group := powers om n.
Definition zN (i : nat) : F := five (fun j => nth (j * n + i) w 0 + g + b * (nth j ks 0 * fpow om i)).
Definition zD (i : nat) : F := five (fun j => nth (j * n + i) w 0 + g + b * position n om ks (nth (j * n + i) perm 0%nat)).
Definition zval (i : nat) : F := fprod (map (fun r => zN r * finv (zD r)) (seq 0 i)).
Lemma zval_S i : zval (S i) = zval i * (zN i * finv (zD i)).
Proof. unfold zval. rewrite seq_S, map_app, fprod_app. cbn [map Nat.add]. rewrite fprod_cons, fprod_nil. ring. Qed.
Lemma z_num_ok i : (i < n)%nat -> z_num n group ks w b g i = zN i.
Proof. intros H. unfold z_num, zN, five. cbn [seq fold_left]. unfold group. rewrite powers_nth by exact H. ring. Qed.
Hypothesis (Hperm : forall p, (p < 5 * n)%nat -> (nth p perm 0 < 5 * n)%nat).
Lemma z_den_ok i : (i < n)%nat -> z_den n group ks w perm b g i = zD i.
Proof. intros H. unfold z_den, zD, five. cbn [seq fold_left]. unfold group. rewrite !p_of_x_ok by (try apply Hperm; try assumption; lia). ring. Qed.
Lemma z_loop_ok : forall k i, (i + k <= n)%nat -> (forall r, (i <= r < i + k)%nat -> zD r <> 0) ->
  z_loop n group ks w perm b g (seq i k) (zval i) = Ok (map (fun r => zval (S r)) (seq i k)).
Proof.
  induction k as [|k IH]; intros i H N; [reflexivity|]. cbn [seq z_loop map]. rewrite z_den_ok, z_num_ok by lia.
  destruct (feqb_spec (zD i) 0) as [X|_]; [exfalso; apply (N i); [lia|exact X]|]. rewrite <- zval_S, IH; [reflexivity|lia|]. intros r Hr. apply N. lia.
Qed.
Lemma z_loop_panics : forall k i prev, (i + k <= n)%nat -> (exists r, (i <= r < i + k)%nat /\ zD r = 0) -> z_loop n group ks w perm b g (seq i k) prev = Panic.
Proof.
  induction k as [|k IH]; intros i prev H [r [Hr Z]]; [lia|]. cbn [seq z_loop]. rewrite z_den_ok by lia. destruct (feqb_spec (zD i) 0) as [X|X]; [reflexivity|].
  rewrite IH; [reflexivity|lia|]. exists r. split; [|exact Z]. destruct (Nat.eq_dec r i) as [->|]; [contradiction|lia].
Qed.
Lemma n_of_w : (length w / 5 = n)%nat. Proof. rewrite Lw, Nat.mul_comm. apply Nat.div_mul. lia. Qed.
Lemma z_poly_ok : (forall r, (r < n - 1)%nat -> zD r <> 0) -> z_poly perm group ks w b g = Ok (from_coefs (map zval (seq 0 n))).
Proof.
  intros N. unfold z_poly. rewrite n_of_w. destruct (Nat.eqb_spec n 0); [lia|]. change (1 : F) with (zval 0) at 1.
  rewrite z_loop_ok; [|lia|intros r Hr; apply N; lia]. cbn [bind]. f_equal. f_equal. destruct n as [|n']; [lia|]. cbn [seq map]. rewrite Nat.sub_succ, Nat.sub_0_r, <- seq_shift, map_map. reflexivity.
Qed.
Lemma z_poly_panics : (exists r, (r < n - 1)%nat /\ zD r = 0) -> z_poly perm group ks w b g = Panic.
Proof.
  intros [r [Hr Z]]. unfold z_poly. rewrite n_of_w. destruct (Nat.eqb_spec n 0); [reflexivity|]. rewrite z_loop_panics; [reflexivity|lia|]. exists r. split; [lia|exact Z].
Qed.
(** The product over all positions does not change under the permutation. *)
Hypothesis (Pperm : Permutation (map (fun p => nth p perm 0%nat) (seq 0 (5 * n))) (seq 0 (5 * n))).
Hypothesis (Wperm : forall p, (p < 5 * n)%nat -> nth (nth p perm 0%nat) w 0 = nth p w 0).
Lemma grand : fprod (map zN (seq 0 n)) = fprod (map zD (seq 0 n)).
Proof.
  pose (f := fun p => nth p w 0 + g + b * position n om ks p).
  transitivity (fprod (map f (seq 0 (5 * n)))).
  - rewrite <- (fprod_five n). apply fprod_ext. intros i Hi. apply in_seq in Hi. unfold zN, f, five. rewrite !position_at by lia. reflexivity.
  - rewrite <- (fprod_perm _ _ (Permutation_map f Pperm)), map_map.
    transitivity (fprod (map (fun p => nth p w 0 + g + b * position n om ks (nth p perm 0%nat)) (seq 0 (5 * n)))).
    + apply fprod_ext. intros p Hp. apply in_seq in Hp. unfold f. rewrite Wperm by lia. reflexivity.
    + rewrite <- (fprod_five n). reflexivity.
Qed.
Lemma zval_partial i : (forall r, (r < i)%nat -> zD r <> 0) -> zval i * fprod (map zD (seq 0 i)) = fprod (map zN (seq 0 i)).
Proof.
  induction i as [|i IH]; intros N; [cbn; ring|]. rewrite zval_S, seq_S, !map_app, !fprod_app. cbn [map Nat.add]. rewrite !fprod_cons, !fprod_nil.
  rewrite <- IH by (intros r Hr; apply N; lia). field. apply N. lia.
Qed.
Lemma zval_step i : (i < n)%nat -> (forall r, (r < n - 1)%nat -> zD r <> 0) -> zval i * zN i = (if Nat.eqb (i + 1) n then 1 else zval (i + 1)) * zD i.
Proof.
  intros Hi N. destruct (Nat.eqb_spec (i + 1) n) as [E|E].
  - assert (Hp : zval i * fprod (map zD (seq 0 i)) = fprod (map zN (seq 0 i))) by (apply zval_partial; intros r Hr; apply N; lia).
    pose proof grand as G. replace n with (S i) in G by lia. rewrite seq_S, !map_app, !fprod_app in G. cbn [map Nat.add] in G. rewrite !fprod_cons, !fprod_nil in G.
    assert (Nz : fprod (map zD (seq 0 i)) <> 0) by (apply fprod_neq0; intros r Hr; apply in_seq in Hr; apply N; lia).
    apply (fmul_cancel F (fprod (map zD (seq 0 i)))); [exact Nz|].
    transitivity (zval i * fprod (map zD (seq 0 i)) * zN i); [ring|]. rewrite Hp.
    transitivity (fprod (map zN (seq 0 i)) * (zN i * 1)); [ring|]. rewrite G. ring.
  - replace (i + 1)%nat with (S i) by lia. rewrite zval_S. field. apply N. lia.
Qed.
End Grand.

(** ** Lagrange constants and the public-input polynomial *)
Section Public.
Context {F : PField}.
Add Field Fpu : (f_th F).
Context (n : nat) (om : F) (Pn : (0 < n)%nat) (P : primitive n om).
Definition others (base : nat) : list nat := filter (fun i => negb (Nat.eqb i base)) (seq 0 n).
Definition lc (base : nat) : F := finv (fprod (map (fun i => fpow om base - fpow om i) (others base))).
Lemma fold_skip {A} (t : A -> bool) (f : A -> F) l : forall acc, fold_left (fun acc i => if t i then acc else acc * f i) l acc = acc * fprod (map f (filter (fun i => negb (t i)) l)).
Proof.
  induction l as [|a l IH]; intros acc; cbn [fold_left filter map]; [rewrite fprod_nil; ring|]. rewrite IH. destruct (t a); cbn [negb map]; [reflexivity|]. rewrite fprod_cons. ring.
Qed.
Lemma others_in base i : In i (others base) <-> (i < n)%nat /\ i <> base.
Proof. unfold others. rewrite filter_In, in_seq, negb_true_iff, Nat.eqb_neq. lia. Qed.
Lemma others_neq0 base : (base < n)%nat -> fprod (map (fun i => fpow om base - fpow om i) (others base)) <> 0.
Proof.
  intros H. apply fprod_neq0. intros i Hi. apply others_in in Hi. intros X. apply (proj1 (fsub_0 F _ _)) in X.
  apply (primitive_inj n om) in X; try lia. exact P.
Qed.
Lemma lc_ok base : (base < n)%nat -> compute_lagrange_constant (powers om n) base = Ok (lc base).
Proof.
  intros H. unfold compute_lagrange_constant. rewrite powers_len, fold_skip.
  replace (fprod (map (fun i => nth base (powers om n) 0 - nth i (powers om n) 0) (filter (fun i => negb (Nat.eqb i base)) (seq 0 n))))
    with (fprod (map (fun i => fpow om base - fpow om i) (others base))).
  - replace (1 * fprod (map (fun i => fpow om base - fpow om i) (others base))) with (fprod (map (fun i => fpow om base - fpow om i) (others base))) by ring.
    destruct (feqb_spec (fprod (map (fun i => fpow om base - fpow om i) (others base))) 0) as [X|_]; [exfalso; now apply (others_neq0 base)|reflexivity].
  - apply fprod_ext. intros i Hi. apply others_in in Hi. now rewrite !powers_nth by lia.
Qed.
Lemma fprod_others (f : nat -> F) base : (base < n)%nat -> fprod (map f (seq 0 n)) = f base * fprod (map f (others base)).
Proof.
  intros H. unfold others. assert (X : forall l, NoDup l -> In base l -> fprod (map f l) = f base * fprod (map f (filter (fun i => negb (Nat.eqb i base)) l))).
  { induction l as [|a l IH]; intros N I; [destruct I|]. inversion N as [|? ? Na N']; subst. cbn [map filter]. rewrite fprod_cons. destruct (Nat.eqb_spec a base) as [->|Hn]; cbn [negb].
    - f_equal. f_equal. clear - Na. induction l as [|c l IH]; [reflexivity|]. cbn [map filter]. destruct (Nat.eqb_spec c base) as [->|Hc]; [exfalso; apply Na; now left|]. cbn [negb map]. f_equal. apply IH. intros X. apply Na. now right.
    - cbn [map]. rewrite fprod_cons, IH; [ring|exact N'|]. destruct I as [->|I]; [contradiction|exact I]. }
  apply X; [apply seq_NoDup|apply in_seq; lia].
Qed.
Lemma pdeg_sum (d : nat) (f : nat -> F -> F) l : (forall i, In i l -> pdeg d (f i)) -> pdeg d (fun x => fsum (map (fun i => f i x) l)).
Proof.
  induction l as [|i l IH]; intros H; cbn [map]; [exact (pdeg_const d 0)|].
  apply (pdeg_ext d (fun x => f i x + fsum (map (fun i => f i x) l))); [intros x; now rewrite fsum_cons|]. apply pdeg_add; [apply H; now left|apply IH; intros; apply H; now right].
Qed.
Lemma others_len base : (base < n)%nat -> (length (others base) <= n - 1)%nat.
Proof.
  intros H. assert (X : (length (base :: others base) <= length (seq 0 n))%nat); [|rewrite seq_length in X; cbn [length] in X; lia].
  apply NoDup_incl_length.
  - constructor; [intros I; apply others_in in I; lia|]. apply NoDup_filter, seq_NoDup.
  - intros i [<-|I]; [apply in_seq; lia|]. apply others_in in I. apply in_seq. lia.
Qed.
Lemma lagrange_all (p : list F) (v : nat -> F) : (length p <= n)%nat -> (forall i, (i < n)%nat -> hv p (fpow om i) = v i) ->
  forall x, hv p x = fsum (map (fun i => v i * lc i * fprod (map (fun j => x - fpow om j) (others i))) (seq 0 n)).
Proof.
  intros L V x. apply (proj1 (fsub_0 F _ _)). revert x.
  apply (pdeg_roots (n - 1) (fun x => hv p x - fsum (map (fun i => v i * lc i * fprod (map (fun j => x - fpow om j) (others i))) (seq 0 n))) (powers om n)).
  - apply pdeg_sub; [apply pdeg_hv; lia|]. apply (pdeg_sum (n - 1) (fun i x => v i * lc i * fprod (map (fun j => x - fpow om j) (others i)))). intros i Hi. apply in_seq in Hi.
    apply pdeg_scale. apply (pdeg_le (length (map (fun j => fpow om j) (others i)))); [rewrite map_length; apply others_len; lia|].
    apply (pdeg_ext _ (fun x => fprod (map (fun z => x - z) (map (fun j => fpow om j) (others i))))); [intros x; now rewrite map_map|]. apply pdeg_fprod.
  - now apply powers_nodup.
  - rewrite powers_len. lia.
  - intros y Hy. unfold powers in Hy. apply in_map_iff in Hy. destruct Hy as [k [<- Hk]]. apply in_seq in Hk. rewrite V by lia.
    rewrite (fsum_ext _ _ (fun i => 0 + (if Nat.eqb i k then v k else 0)) (seq 0 n)).
    + rewrite (sum_point (fun _ => 0) k (v k) n 0), fsum_zero by reflexivity. destruct (Nat.leb_spec 0 k), (Nat.ltb_spec k (0 + n)); try lia; cbn [andb]. ring.
    + intros i Hi. apply in_seq in Hi. destruct (Nat.eqb_spec i k) as [->|Hn].
      * unfold lc. field. apply others_neq0. lia.
      * rewrite (fprod_zero _ (others i) k); [ring|apply others_in; lia|ring].
Qed.
Lemma lagrange_eval (p : list F) (v : nat -> F) x : (length p <= n)%nat -> (forall i, (i < n)%nat -> hv p (fpow om i) = v i) ->
  (forall i, (i < n)%nat -> x - fpow om i <> 0) ->
  hv p x = fsum (map (fun i => v i * (lc i * finv (x - fpow om i))) (seq 0 n)) * (fpow x n - 1).
Proof.
  intros L V N. rewrite (lagrange_all p v L V x). rewrite <- (from_zeroes_value n om Pn P x). unfold powers. rewrite map_map.
  set (prod := fprod (map (fun j => x - fpow om j) (seq 0 n))).
  transitivity (prod * fsum (map (fun i => v i * (lc i * finv (x - fpow om i))) (seq 0 n))); [|ring].
  rewrite <- fsum_scale. apply fsum_ext. intros i Hi. apply in_seq in Hi. unfold prod. rewrite (fprod_others (fun j => x - fpow om j) i) by lia. field. apply N. lia.
Qed.

(** The public values by row. *)
Context (w : nat -> F).
Definition row_pi (g : gate F) : F := match g_pub g with Some v => w v | None => 0 end.
Lemma pub_sum (c : nat -> F) : forall gs s, fsum (map (fun iv => w (snd iv) * c (fst iv)) (pub_from s gs)) =
  fsum (map (fun i => row_pi (nth (i - s) gs (gate_of (fun _ => 0))) * c i) (seq s (length gs))).
Proof.
  induction gs as [|g gs IH]; intros s; [reflexivity|]. cbn [pub_from length seq map]. rewrite fsum_cons, Nat.sub_diag. change (nth 0 (g :: gs) (gate_of (fun _ => 0))) with g.
  rewrite (fsum_ext _ (fun i => row_pi (nth (i - s) (g :: gs) (gate_of (fun _ => 0))) * c i) (fun i => row_pi (nth (i - Datatypes.S s) gs (gate_of (fun _ => 0))) * c i) (seq (Datatypes.S s) (length gs))).
  - rewrite <- IH. unfold row_pi at 1. destruct (g_pub g); cbn [map]; [rewrite fsum_cons; reflexivity|ring].
  - intros i Hi. apply in_seq in Hi. replace (i - s)%nat with (Datatypes.S (i - Datatypes.S s)) by lia. reflexivity.
Qed.
Lemma pub_from_lt : forall gs s iv, In iv (pub_from (F := F) s gs) -> (s <= fst iv < s + length gs)%nat.
Proof.
  induction gs as [|g gs IH]; intros s iv H; [destruct H|]. cbn [pub_from length] in *. destruct (g_pub g); [destruct H as [<-|H]; [cbn; lia|]|]; apply IH in H; lia.
Qed.
Lemma find_pos_shift i : forall l pos, find_position i (Datatypes.S pos) l = option_map Datatypes.S (find_position i pos l).
Proof. induction l as [|x l IH]; intros pos; [reflexivity|]. cbn [find_position]. destruct (Nat.eqb x i); [reflexivity|apply IH]. Qed.
Lemma pi_value_ok : forall gs s i, (s <= i < s + length gs)%nat ->
  pi_value (map fst (pub_from s gs)) (map (fun iv => w (snd iv)) (pub_from s gs)) i = Ok (row_pi (nth (i - s) gs (gate_of (fun _ => 0)))).
Proof.
  induction gs as [|g gs IH]; intros s i H; [cbn in H; lia|]. cbn [length] in H. destruct (Nat.eq_dec i s) as [->|Hn].
  - rewrite Nat.sub_diag. cbn [nth pub_from]. unfold row_pi. destruct (g_pub g) as [v|].
    + unfold pi_value. cbn [map find_position fst]. rewrite Nat.eqb_refl. reflexivity.
    + unfold pi_value. assert (X : forall l pos, (forall iv, In iv l -> fst iv <> s) -> find_position s pos (map (@fst nat nat) l) = None).
      { induction l as [|a l IHl]; intros pos A; [reflexivity|]. cbn [map find_position]. destruct (Nat.eqb_spec (fst a) s) as [e|_]; [exfalso; apply (A a); [now left|exact e]|]. apply IHl. intros; apply A; now right. }
      rewrite X; [reflexivity|]. intros iv Hiv. apply pub_from_lt in Hiv. lia.
  - replace (i - s)%nat with (Datatypes.S (i - Datatypes.S s)) by lia. cbn [nth pub_from]. specialize (IH (Datatypes.S s) i ltac:(lia)). destruct (g_pub g) as [v|]; [|exact IH].
    rewrite <- IH. unfold pi_value. cbn [map find_position fst snd]. destruct (Nat.eqb_spec s i); [lia|]. rewrite find_pos_shift.
    destruct (find_position i 0 (map fst (pub_from (Datatypes.S s) gs))); reflexivity.
Qed.
Lemma eval_pi_loop_ok x : (N.of_nat n < 2 ^ 32)%N -> (forall i, (i < n)%nat -> x - fpow om i <> 0) ->
  forall l acc, (forall iv, In iv l -> (fst iv < n)%nat) ->
  eval_pi_loop om x (map fst l) (map (fun iv => w (snd iv)) l) (map (fun iv => lc (fst iv)) l) acc =
  Ok (acc + fsum (map (fun iv => w (snd iv) * (lc (fst iv) * finv (x - fpow om (fst iv)))) l)).
Proof.
  intros B N. induction l as [|iv l IH]; intros acc H; cbn [map eval_pi_loop].
  - f_equal. rewrite fsum_nil. ring.
  - assert (E : pow_limbs om [N.of_nat (fst iv)] = fpow om (fst iv)).
    { pose proof (H iv (or_introl eq_refl)) as Hi. replace (fst iv) with (Datatypes.S (fst iv) - 1)%nat by lia. apply root_inv_ok. lia. }
    rewrite E. destruct (feqb_spec (x - fpow om (fst iv)) 0) as [X|_]; [exfalso; apply (N (fst iv)); [apply H; now left|exact X]|].
    rewrite IH by (intros; apply H; now right). f_equal. rewrite fsum_cons. ring.
Qed.
End Public.
