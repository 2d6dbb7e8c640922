(** Polynomial facts for the PLONK proofs. *)
From Coq Require Import List Arith NArith ZArith Lia Bool Permutation Field Ring.
From Verif Require Import Base Field PField Power PolyModel PolySpec PolyProofs PolyLemmas PolyFft PolyProps KzgProofs.
Import ListNotations.
Local Open Scope F_scope.

Section Products.
Context {F : Field}.
Add Field Fpp : (f_th F).

Lemma fprod_cons (a : F) l : fprod (a :: l) = a * fprod l. Proof. reflexivity. Qed.
Lemma fprod_app (l m : list F) : fprod (l ++ m) = fprod l * fprod m.
Proof. induction l as [|a l IH]; cbn [app]; [rewrite fprod_nil; ring|]. rewrite !fprod_cons, IH. ring. Qed.
Lemma fprod_perm (l m : list F) : Permutation l m -> fprod l = fprod m.
Proof. induction 1; rewrite ?fprod_cons; try congruence; ring. Qed.
Lemma fprod_mul {A} (f g : A -> F) l : fprod (map (fun a => f a * g a) l) = fprod (map f l) * fprod (map g l).
Proof. induction l as [|a l IH]; cbn [map]; [rewrite !fprod_nil; ring|]. rewrite !fprod_cons, IH. ring. Qed.
Lemma fprod_ext {A} (f g : A -> F) l : (forall a, In a l -> f a = g a) -> fprod (map f l) = fprod (map g l).
Proof. intros X. f_equal. now apply map_ext_in. Qed.
Lemma fprod_neq0 {A} (f : A -> F) l : (forall a, In a l -> f a <> 0) -> fprod (map f l) <> 0.
Proof.
  induction l as [|a l IH]; intros X; cbn [map]; [rewrite fprod_nil; apply f1_neq_0|]. rewrite fprod_cons.
  apply fmul_neq_0; [apply X; now left|apply IH; intros b Hb; apply X; now right].
Qed.
Lemma fprod_zero {A} (f : A -> F) l a : In a l -> f a = 0 -> fprod (map f l) = 0.
Proof. induction l as [|b l IH]; intros I Z; [destruct I|]. cbn [map]. rewrite fprod_cons. destruct I as [->|I]; [rewrite Z; ring|]. rewrite IH by assumption. ring. Qed.

(** ** Interpolation, padding with zeroes *)
Lemma resize_len n (l : list F) : (length l <= n)%nat -> length (resize n l) = n.
Proof. intros H. unfold resize. rewrite app_length, firstn_length, repeat_length. lia. Qed.
Lemma resize_coef n (l : list F) i : (length l <= n)%nat -> coef (resize n l) i = coef l i.
Proof. intros H. unfold resize. rewrite firstn_all2 by exact H. apply coef_app_zeroes. Qed.
Lemma ffti_ok n w (values : list F) : supported n -> primitive n w -> (N.of_nat n < 2 ^ 32)%N -> (length values <= n)%nat ->
  exists p, ffti w values n = Ok p /\ normal p /\ (length p <= n)%nat /\ forall i, (i < n)%nat -> hv p (fpow w i) = coef values i.
Proof.
  intros S P B L. pose proof (supported_pos n S) as Pn.
  destruct (interpolation n w (resize n values) S P B (resize_len n values L)) as [p [E [Lp V]]].
  exists (trim p). unfold ffti. rewrite E. cbn [bind]. split; [reflexivity|].
  split; [apply trim_normal; intros ->; cbn in Lp; lia|]. split; [rewrite <- Lp; apply trim_len|].
  intros i Hi. rewrite trim_hv, V by exact Hi. now apply resize_coef.
Qed.
(** The values of a polynomial on the domain determine the interpolation. *)
Lemma ffti_of n w (values : list F) q : supported n -> primitive n w -> (N.of_nat n < 2 ^ 32)%N -> (length values <= n)%nat -> normal q -> (length q <= n)%nat ->
  (forall i, (i < n)%nat -> hv q (fpow w i) = coef values i) -> ffti w values n = Ok q.
Proof.
  intros S P B L N Lq V. destruct (ffti_ok n w values S P B L) as [p [E [Np [Lp Vp]]]]. rewrite E. f_equal.
  apply normal_unique; [exact Np|exact N|]. apply (poly_unique (powers w n)); [now apply powers_nodup| | |].
  1,2: unfold powers; rewrite map_length, seq_length; assumption.
  intros z Hz. unfold powers in Hz. apply in_map_iff in Hz. destruct Hz as [i [<- Hi]]. apply in_seq in Hi. rewrite V, Vp by lia. reflexivity.
Qed.
Lemma same_on_domain n w (p q : list F) : primitive n w -> (length p <= n)%nat -> (length q <= n)%nat ->
  (forall i, (i < n)%nat -> hv p (fpow w i) = hv q (fpow w i)) -> same_poly p q.
Proof.
  intros P Lp Lq V. apply (poly_unique (powers w n)); [now apply powers_nodup| | |].
  1,2: unfold powers; rewrite map_length, seq_length; assumption.
  intros z Hz. unfold powers in Hz. apply in_map_iff in Hz. destruct Hz as [i [<- Hi]]. apply in_seq in Hi. apply V. lia.
Qed.
Lemma coset_fft_ok m w k (p : list F) : supported m -> primitive m w -> p <> [] -> (length p <= m)%nat ->
  coset_fft p w m k = Ok (map (fun i => hv p (k * fpow w i)) (seq 0 m)).
Proof. intros S P N L. rewrite (C44_coset_fft_values p w m k S P N L). f_equal. apply map_ext. intros i. symmetry. apply hv_value. Qed.
Lemma coset_ffti_ok m w k (p : list F) values : supported m -> primitive m w -> (N.of_nat m < 2 ^ 32)%N -> k <> 0 -> normal p -> (length p <= m)%nat ->
  values = map (fun i => hv p (k * fpow w i)) (seq 0 m) -> coset_ffti w values (finv k) m = Ok p.
Proof.
  intros S P B K N L ->. pose proof (C44_coset_ifft_fft p w m k (finv k) S P B (normal_nonempty p N) L) as X.
  rewrite (coset_fft_ok m w k p S P (normal_nonempty p N) L) in X. cbn [bind] in X. rewrite X by (field; exact K). f_equal.
  apply normal_unique; [apply trim_normal, normal_nonempty, N|exact N|apply trim_same].
Qed.

(** ** Polynomial functions of bounded degree *)
Definition pdeg (d : nat) (f : F -> F) : Prop := exists p, (length p <= S d)%nat /\ forall x, hv p x = f x.
Lemma pdeg_hv d (p : list F) : (length p <= S d)%nat -> pdeg d (hv p). Proof. intros L. exists p. auto. Qed.
Lemma pdeg_ext d f g : (forall x, f x = g x) -> pdeg d f -> pdeg d g.
Proof. intros E [p [L V]]. exists p. split; [exact L|]. intros x. now rewrite V. Qed.
Lemma pdeg_le d d' f : (d <= d')%nat -> pdeg d f -> pdeg d' f. Proof. intros H [p [L V]]. exists p. split; [lia|exact V]. Qed.
Lemma pdeg_const d c : pdeg d (fun _ => c). Proof. exists [c]. split; [cbn; lia|]. intros x. cbn. ring. Qed.
Lemma pdeg_x d : (1 <= d)%nat -> pdeg d (fun x => x). Proof. intros H. exists [0; 1]. split; [cbn; lia|]. intros x. cbn. ring. Qed.
Lemma pdeg_add d f g : pdeg d f -> pdeg d g -> pdeg d (fun x => f x + g x).
Proof. intros [p [Lp Vp]] [q [Lq Vq]]. exists (add p q). split; [pose proof (add_len p q); lia|]. intros x. now rewrite hv_add, Vp, Vq. Qed.
Lemma pdeg_sub d f g : pdeg d f -> pdeg d g -> pdeg d (fun x => f x - g x).
Proof. intros [p [Lp Vp]] [q [Lq Vq]]. exists (sub p q). split; [pose proof (sub_len p q); lia|]. intros x. now rewrite hv_sub, Vp, Vq. Qed.
Lemma pmul_len (p q : list F) : q <> [] -> (length (pmul p q) <= length p + length q - 1)%nat.
Proof.
  intros Nq. assert (Lq : (1 <= length q)%nat) by (destruct q; [now destruct Nq|cbn; lia]).
  induction p as [|a p IH]; [cbn; lia|]. cbn [pmul length]. pose proof (add_len (mul_scalar q a) (0 :: pmul p q)) as X. pose proof (scale_len q a).
  cbn [length] in X. destruct p as [|b p]; [cbn [pmul length] in *; lia|]. cbn [length] in *. lia.
Qed.
Lemma pdeg_mul a b f g : pdeg a f -> pdeg b g -> pdeg (a + b) (fun x => f x * g x).
Proof.
  intros [p [Lp Vp]] [q [Lq Vq]]. destruct q as [|c q].
  - exists []. split; [cbn; lia|]. intros x. rewrite <- Vq. cbn. ring.
  - exists (pmul p (c :: q)). split; [pose proof (pmul_len p (c :: q) ltac:(discriminate)); cbn [length] in *; lia|]. intros x. now rewrite hv_pmul, Vp, Vq.
Qed.
Lemma pdeg_scale d c f : pdeg d f -> pdeg d (fun x => c * f x).
Proof. intros H. apply (pdeg_le (0 + d)); [lia|]. apply pdeg_mul; [apply pdeg_const|exact H]. Qed.
Lemma pdeg_shift d s f : pdeg d f -> pdeg d (fun x => f (s * x)).
Proof.
  intros [p [L V]]. exists (mul_var p s). split; [|intros x; now rewrite hv_mul_var, V].
  unfold mul_var. etransitivity; [apply trim_len|]. assert (X : forall l (r : F), length (mul_var_loop r s l) = length l) by (induction l as [|a l IH]; intros r; cbn; auto). now rewrite X.
Qed.
Lemma pdeg_roots d f (zs : list F) : pdeg d f -> NoDup zs -> (d < length zs)%nat -> (forall z, In z zs -> f z = 0) -> forall x, f x = 0.
Proof.
  intros [p [L V]] N Lz R x. rewrite <- V. apply hv_zero. apply (roots_bound zs); [exact N|lia|]. intros z Hz. rewrite V. now apply R.
Qed.

(** ** The vanishing polynomial *)
Lemma divide_roots : forall (zs : list F) d f, NoDup zs -> pdeg (length zs + d) f -> (forall z, In z zs -> f z = 0) ->
  exists q, (length q <= S d)%nat /\ forall x, f x = fprod (map (fun z => x - z) zs) * hv q x.
Proof.
  induction zs as [|z zs IH]; intros d f N D R.
  - destruct D as [p [L V]]. exists p. split; [exact L|]. intros x. cbn [map]. rewrite fprod_nil, V. ring.
  - inversion N as [|? ? Nz N']; subst. destruct D as [p [L V]].
    assert (Vz : forall x, f x = (x - z) * hv (syn p z) x).
    { intros x. rewrite <- V, (syn_value p z x), V, (R z (or_introl eq_refl)). ring. }
    destruct (IH d (hv (syn p z)) N') as [q [Lq Q]].
    + apply pdeg_hv. rewrite syn_len. cbn [length] in L. lia.
    + intros y Hy. assert (X : (y - z) * hv (syn p z) y = 0) by (rewrite <- Vz; apply R; now right).
      apply fmul_0 in X. destruct X as [X|X]; [|exact X]. exfalso. apply (proj1 (fsub_0 F _ _)) in X. subst y. contradiction.
    + exists q. split; [exact Lq|]. intros x. rewrite Vz, Q. cbn [map]. rewrite fprod_cons. ring.
Qed.
Lemma pdeg_fprod (zs : list F) : pdeg (length zs) (fun x => fprod (map (fun z => x - z) zs)).
Proof.
  induction zs as [|z zs IH]; cbn [length].
  - apply pdeg_ext with (f := fun _ => 1); [reflexivity|apply pdeg_const].
  - apply pdeg_ext with (f := fun x => (x - z) * fprod (map (fun z => x - z) zs)); [reflexivity|].
    apply (pdeg_mul 1 (length zs)); [apply pdeg_sub; [apply pdeg_x; lia|apply pdeg_const]|exact IH].
Qed.
Lemma pdeg_pow n : pdeg n (fun x => fpow x n).
Proof. induction n as [|n IH]; [exact (pdeg_const 0 1)|]. apply pdeg_ext with (f := fun x => x * fpow x n); [reflexivity|]. apply (pdeg_mul 1 n); [apply pdeg_x; lia|exact IH]. Qed.
Lemma hv_monic n (x : F) : hv (repeat 0 n ++ [1]) x = fpow x n.
Proof. rewrite hv_app, hv_zeroes, repeat_length. cbn [hv]. ring. Qed.
Lemma from_zeroes_value n (w : F) : (0 < n)%nat -> primitive n w -> forall x, fprod (map (fun z => x - z) (powers w n)) = fpow x n - 1.
Proof.
  intros Pn P x. set (zs := powers w n). assert (Lz : length zs = n) by (unfold zs, powers; now rewrite map_length, seq_length).
  destruct (from_zeroes_ok zs) as [V [N [L La]]].
  (* monic of degree n, so the difference with X^n has degree < n *)
  assert (T : forall y, hv (firstn n (from_zeroes zs)) y = hv (from_zeroes zs) y - fpow y n).
  { intros y. rewrite Lz in L. assert (Nn : from_zeroes zs <> []) by (intros E; rewrite E in L; discriminate).
    destruct (exists_last Nn) as [l [a El]]. rewrite El in *. rewrite last_last in La. subst a. rewrite app_length in L. cbn [length] in L.
    replace n with (length l) by lia. rewrite firstn_app, Nat.sub_diag, firstn_all, firstn_O, app_nil_r, hv_app. cbn [hv]. ring. }
  assert (Z : forall y, hv (firstn n (from_zeroes zs)) y + 1 = 0).
  { apply (pdeg_roots (n - 1) (fun y => hv (firstn n (from_zeroes zs)) y + 1) zs).
    - apply pdeg_add; [apply pdeg_hv; rewrite firstn_length; lia|apply pdeg_const].
    - unfold zs. now apply powers_nodup.
    - lia.
    - intros z Hz. rewrite T, V. rewrite (fprod_zero _ zs z Hz) by ring.
      unfold zs, powers in Hz. apply in_map_iff in Hz. destruct Hz as [i [<- _]]. rewrite <- fpow_mul, Nat.mul_comm, fpow_mul, (proj1 P), fpow_1_l. ring. }
  rewrite <- V. pose proof (T x) as Tx. pose proof (Z x) as Zx. transitivity (hv (from_zeroes zs) x - fpow x n + (fpow x n)); [ring|].
  rewrite <- Tx. transitivity (hv (firstn n (from_zeroes zs)) x + 1 + (fpow x n - 1)); [ring|]. rewrite Zx. ring.
Qed.
(** Divisibility by X^n - 1. *)
Lemma divide_vanishing n (w : F) d f : (0 < n)%nat -> primitive n w -> pdeg (n + d) f -> (forall i, (i < n)%nat -> f (fpow w i) = 0) ->
  exists q, (length q <= S d)%nat /\ forall x, f x = (fpow x n - 1) * hv q x.
Proof.
  intros Pn P D R. destruct (divide_roots (powers w n) d f) as [q [L V]].
  - now apply powers_nodup.
  - unfold powers. now rewrite map_length, seq_length.
  - intros z Hz. unfold powers in Hz. apply in_map_iff in Hz. destruct Hz as [i [<- Hi]]. apply in_seq in Hi. apply R. lia.
  - exists q. split; [exact L|]. intros x. rewrite V, from_zeroes_value by assumption. reflexivity.
Qed.
Lemma fpow_root n (w : F) i : primitive n w -> fpow (fpow w i) n = 1.
Proof. intros P. rewrite <- fpow_mul, Nat.mul_comm, fpow_mul, (proj1 P). apply fpow_1_l. Qed.
(** The powers of a power. *)
Lemma primitive_power m (w : F) n f : (n * f = m)%nat -> (0 < f)%nat -> primitive m w -> primitive n (fpow w f).
Proof.
  intros E Pf [A B]. split.
  - rewrite <- fpow_mul, Nat.mul_comm, E. exact A.
  - intros d Hd. rewrite <- fpow_mul. apply B. nia.
Qed.

End Products.
