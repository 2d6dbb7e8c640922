(** Proofs about the KZG model. *)
From Coq Require Import List Arith NArith Bool Lia Field Ring.
From Verif Require Import Base Field PolyModel PolySpec PolyProofs PolyLemmas KzgModel KzgSpec.
Import ListNotations.
Local Open Scope F_scope.

(** ** Division by a linear factor *)
Section Div.
Context {F : Field}.
Add Field Fk : (f_th F).

Lemma div_rem_shape (p d q r : list F) : normal p -> (1 <= length d)%nat -> div_rem p d = Ok (q, r) ->
  normal q /\ normal r /\ (length q <= Nat.max 1 (length p - length d + 1))%nat.
Proof.
  intros N Ld E. unfold div_rem in E. destruct (Nat.ltb_spec (length p) (length d)) as [l|g].
  - apply Ok_inj in E. inversion E; subst. repeat split; [left; reflexivity|exact N|change (1 <= Nat.max 1 (length r - length d + 1))%nat; lia].
  - destruct (rev d) as [|b d']; [discriminate|]. destruct (feqb b 0); [discriminate|].
    destruct (div_loop _ _ _ _ _) as [quo rem] eqn:Ed.
    assert (Lq : length quo = (length p - length d + 1)%nat).
    { assert (X : forall n inv d rem quo, length (fst (div_loop (F:=F) n inv d rem quo)) = length quo).
      { clear. induction n as [|n IH]; intros inv d rem quo; cbn [div_loop]; [reflexivity|]. rewrite IH. apply set_len. }
      pose proof (X (length p - length d + 1)%nat (finv b) d p (repeat 0 (length p - length d + 1))) as Y.
      rewrite Ed in Y. cbn [fst] in Y. now rewrite repeat_length in Y. }
    apply Ok_inj in E. inversion E; subst.
    assert (Tn : forall l : list F, l <> [] -> normal (trim (from_coefs l))).
    { intros l Hl. apply trim_normal, normal_nonempty, trim_normal, Hl. }
    repeat split.
    + apply Tn. destruct quo; [cbn in Lq; lia|discriminate].
    + apply Tn. destruct (firstn _ rem); discriminate.
    + etransitivity; [apply trim_len|]. etransitivity; [apply trim_len|]. lia.
Qed.

Lemma normal_zero (r : list F) : normal r -> (forall i, coef r i = 0) -> r = [0].
Proof.
  intros N Z. destruct N as [E|[A B]]; [exact E|]. exfalso. apply B. rewrite last_coef by exact A. apply Z.
Qed.

Lemma div_linear (p d : list F) (x : F) : normal p -> d = [fopp x; 1] -> hv p x = 0 ->
  exists q, div_rem p d = Ok (q, [0]) /\ (forall y, hv p y = (y - x) * hv q y) /\ normal q /\
  (length q <= Nat.max 1 (length p - 1))%nat.
Proof.
  intros N -> Z.
  assert (L1 : last [fopp x; 1] (0:F) <> 0) by (cbn; apply f1_neq_0).
  destruct (div_rem_ok p [fopp x; 1]) as [q [r [E [C D]]]]; [discriminate|exact L1|].
  destruct (div_rem_shape p [fopp x; 1] q r N (le_S _ _ (le_n 1)) E) as [Nq [Nr Lq]]. cbn [length] in *.
  assert (V : forall y, hv p y = (y - x) * hv q y + coef r 0).
  { intros y. transitivity (1 * hv (pmul q [fopp x; 1]) y + 1 * hv r y).
    - apply hv_lin. intros i. rewrite C, pmul_coef. ring.
    - rewrite hv_pmul. cbn [hv]. replace (hv r y) with (coef r 0); [ring|].
      rewrite hv_step, (hv_zero (tl r)); [ring|]. intros i. rewrite coef_tl. apply D. lia. }
  assert (R0 : coef r 0 = 0). { pose proof (V x) as Vx. rewrite Z in Vx. rewrite Vx. ring. }
  assert (R : r = [0]). { apply normal_zero; [exact Nr|]. intros [|i]; [exact R0|apply D; lia]. }
  subst r. exists q. split; [exact E|]. split; [|split; [exact Nq|lia]].
  intros y. rewrite V, R0. ring.
Qed.

Lemma from_coefs_linear (x : F) : from_coefs [fopp x; 1] = [fopp x; 1].
Proof.
  unfold from_coefs, trim. cbn [rev app pop_zeroes].
  destruct (feqb_spec (1 : F) 0) as [E|E]; [exfalso; exact (f1_neq_0 F E)|reflexivity].
Qed.
Lemma from_zeroes_linear (x : F) : from_zeroes [x] = [fopp x; 1].
Proof.
  destruct (from_zeroes_ok [x]) as [V [N [L La]]]. apply normal_unique; [exact N|right; split; [discriminate|cbn; apply f1_neq_0]|].
  cbn [length] in L. destruct (from_zeroes [x]) as [|a [|b [|? ?]]]; try discriminate. cbn [last] in La. subst b.
  pose proof (V 0) as V0. cbn [hv map] in V0. rewrite fprod_cons, fprod_nil in V0.
  assert (a = fopp x) by (transitivity (a + 0 * (1 + 0 * 0)); [ring|rewrite V0; ring]). subst a. intros i. reflexivity.
Qed.
Lemma hv_sub (p q : list F) x : hv (sub p q) x = hv p x - hv q x.
Proof. rewrite (hv_lin p q _ 1 (fopp 1)) by (intros j; rewrite sub_coefs; ring). ring. Qed.
Lemma hv_add (p q : list F) x : hv (add p q) x = hv p x + hv q x.
Proof. rewrite (hv_lin p q _ 1 1) by (intros j; rewrite add_coefs; ring). ring. Qed.
Lemma hv_scale (p : list F) s x : hv (mul_scalar p s) x = s * hv p x.
Proof. rewrite (hv_lin p p _ s 0) by (intros j; rewrite mul_scalar_coefs; ring). ring. Qed.
Lemma hv_const (a x : F) : hv (from_coefs [a]) x = a.
Proof. unfold from_coefs. rewrite trim_hv. cbn. ring. Qed.
Lemma merge_len (p q : list F) (f h : list F -> list F) (k : list (F * F) -> list F) :
  (forall l, length (k l) = length l) -> (forall l, length (h l) = length l) ->
  length (k (combine p q) ++ skipn (length q) p ++ (if Nat.ltb (length p) (length q) then h (skipn (length p) q) else []))
  = Nat.max (length p) (length q).
Proof.
  intros K H. rewrite !app_length, K, combine_length, skipn_length.
  destruct (Nat.ltb_spec (length p) (length q)); [rewrite H, skipn_length|cbn [length]]; lia.
Qed.
Lemma sub_len (p q : list F) : (length (sub p q) <= Nat.max (length p) (length q))%nat.
Proof.
  unfold sub. etransitivity; [apply trim_len|].
  rewrite (merge_len p q (fun l => l) (map fopp) (map (fun xy => fst xy - snd xy))); [lia|intros; apply map_length..].
Qed.
Lemma add_len (p q : list F) : (length (add p q) <= Nat.max (length p) (length q))%nat.
Proof.
  unfold add. etransitivity; [apply trim_len|].
  rewrite (merge_len p q (fun l => l) (fun l => l) (map (fun xy => fst xy + snd xy))); [lia|intros; apply map_length|reflexivity].
Qed.
Lemma scale_len (p : list F) s : (length (mul_scalar p s) <= length p)%nat.
Proof. unfold mul_scalar. etransitivity; [apply trim_len|]. now rewrite map_length. Qed.
Lemma sub_normal (p q : list F) : q <> [] -> normal (sub p q).
Proof.
  intros Nq. unfold sub. apply trim_normal. intros E. apply (f_equal (@length F)) in E.
  rewrite (merge_len p q (fun l => l) (map fopp) (map (fun xy => fst xy - snd xy))) in E; [|intros; apply map_length..].
  destruct q; [now apply Nq|cbn [length] in E; lia].
Qed.
Lemma add_normal (p q : list F) : p <> [] -> normal (add p q).
Proof.
  intros Np. unfold add. apply trim_normal. intros E. apply (f_equal (@length F)) in E.
  rewrite (merge_len p q (fun l => l) (fun l => l) (map (fun xy => fst xy + snd xy))) in E; [|intros; apply map_length|reflexivity].
  destruct p; [now apply Np|cbn [length] in E; lia].
Qed.
Lemma from_coefs_len1 (a : F) : length (from_coefs [a]) = 1%nat. Proof. reflexivity. Qed.
End Div.

Section Kzg.
Context {F : Field} {G1 G2 GT : Mod F}.
Context (e : G1 -> G2 -> GT) (base1 : G1) (base2 : G2).
Add Field Fk2 : (f_th F).
Notation setup := (setup base1 base2).
Notation com := (com base1).
Notation opens := (opens base1).

Lemma g1_powers_len n : forall (g : G1) s, length (g1_powers n g s) = n.
Proof. induction n as [|n IH]; intros g s; cbn; [reflexivity|]. now rewrite IH. Qed.
Lemma g1_powers_nth n : forall (g : G1) s i, (i < n)%nat -> nth_error (g1_powers n g s) i = Some (fpow s i *: g)%M.
Proof.
  induction n as [|n IH]; intros g s i Hi; [lia|]. destruct i as [|i]; cbn [g1_powers nth_error fpow].
  - f_equal. symmetry. apply smul_1.
  - rewrite IH by lia. f_equal. rewrite smul_smul. f_equal. ring.
Qed.
Lemma firstn_powers n : forall m (g : G1) s, (m <= n)%nat -> firstn m (g1_powers n g s) = g1_powers m g s.
Proof.
  induction n as [|n IH]; intros [|m] g s H; cbn; [reflexivity..|lia|reflexivity|]. f_equal. apply IH. lia.
Qed.
Lemma msm_powers (p : list F) : forall n (g : G1) s, (length p <= n)%nat -> msm p (g1_powers n g s) = (hv p s *: g)%M.
Proof.
  induction p as [|a p IH]; intros n g s L; cbn [length] in L.
  - unfold msm. cbn. symmetry. apply smul_0l.
  - destruct n as [|n]; [lia|]. cbn [g1_powers]. unfold msm in *. cbn [combine map msum fold_right fst snd hv].
    change (fold_right madd m0 ?l) with (msum l). rewrite IH by lia. module_eq.
Qed.
Lemma hv_value (p : list F) x : hv p x = value p x.
Proof. rewrite <- eval_hv. apply eval_value. Qed.
Lemma commit_setup n s (p : list F) : commit (setup n s) p = if Nat.leb (length p) (S n) then Ok (com s p) else Err.
Proof.
  unfold commit, degree. cbn [pp1 setup]. rewrite g1_powers_len.
  destruct (Nat.leb_spec (length p) (S n)).
  - assert (E : Nat.ltb (S n) (length p - 1 + 1) = false) by (apply Nat.ltb_ge; lia). rewrite E. f_equal.
    unfold com. rewrite <- hv_value, <- msm_powers with (n := (length p - 1 + 1)%nat) by lia.
    rewrite firstn_powers by lia. reflexivity.
  - assert (E : Nat.ltb (S n) (length p - 1 + 1) = true) by (apply Nat.ltb_lt; lia). now rewrite E.
Qed.

Lemma apply_blinds_ok n s z : forall blinds i c, (z + i + length blinds <= S n)%nat ->
  apply_blinds (setup n s) z i blinds c = Ok (c + (fpow s i * (1 - fpow s z) * hv blinds s) *: base1)%M.
Proof.
  induction blinds as [|b bs IH]; intros i c L; cbn [apply_blinds length] in *.
  - f_equal. cbn [hv]. module_eq.
  - cbn [pp1 KzgModel.setup]. rewrite !g1_powers_nth by lia. rewrite IH by lia. f_equal. cbn [hv].
    rewrite (fpow_add F s z i). cbn [fpow]. module_eq.
Qed.

Context (P : pairing_for e base2).
Lemma pair_inj (a b : G1) : e a base2 = e b base2 -> a = b.
Proof.
  destruct P as [A [S [_ [_ N]]]]. intros H. apply (proj1 (msub_0 a b)). apply N.
  unfold msub. rewrite A, mopp_smul, S, H. module_eq.
Qed.
Lemma pair_right (a : G1) x h h' : e a (h - x *: h')%M = (e a h - x *: e a h')%M.
Proof.
  destruct P as [_ [_ [B [T _]]]]. unfold msub. rewrite B. f_equal. rewrite !mopp_smul, T, T. reflexivity.
Qed.
Lemma pair_scale (a : G1) s : e a (s *: base2)%M = e (s *: a)%M base2.
Proof. destruct P as [_ [S [_ [T _]]]]. now rewrite S, T. Qed.

Lemma verify_setup n s c x v w : verify e (setup n s) c x v w = if m_dec (c - v *: base1)%M ((s - x) *: w)%M then Ok tt else Err.
Proof.
  unfold verify. cbn [pp1 pp2 KzgModel.setup g1_powers].
  assert (L : (if feqb v 0 then e c base2 else e (c - v *: base1)%M base2) = e (c - v *: base1)%M base2).
  { destruct (feqb_spec v 0) as [E|E]; [|reflexivity]. f_equal. rewrite E. module_eq. }
  rewrite L.
  assert (R : e w (s *: base2 - x *: base2)%M = e ((s - x) *: w)%M base2).
  { rewrite <- pair_scale. f_equal. module_eq. }
  rewrite R. destruct (meqb_spec (e (c - v *: base1)%M base2) (e ((s - x) *: w)%M base2)) as [E|E];
  destruct (m_dec (c - v *: base1)%M ((s - x) *: w)%M) as [E'|E']; try reflexivity.
  - exfalso. apply E', pair_inj, E.
  - exfalso. apply E. now rewrite E'.
Qed.
Lemma verify_iff n s c x v w : verify e (setup n s) c x v w = Ok tt <-> opens s c x v w.
Proof.
  rewrite verify_setup. unfold opens. destruct (m_dec _ _); split; intros; try congruence; reflexivity.
Qed.

Lemma prove_ok n s (p : list F) x d : (length p <= S n)%nat -> (degree p <= d)%nat ->
  exists q, prove (setup n s) p x d = Ok (com s q) /\ (forall y, hv p y - hv p x = (y - x) * hv q y).
Proof.
  intros L D. unfold prove. assert (E : Nat.ltb d (degree p) = false) by (apply Nat.ltb_ge; lia). rewrite E.
  rewrite from_coefs_linear.
  assert (Nn : normal (sub p (from_coefs [eval p x]))) by (apply sub_normal; discriminate).
  destruct (div_linear (sub p (from_coefs [eval p x])) _ x Nn eq_refl) as [q [Q [V [Nq Lq]]]].
  { rewrite hv_sub, hv_const, eval_hv. ring. }
  rewrite Q. cbn [bind fst snd]. unfold is_zero. cbn [degree length Nat.sub Nat.eqb bind].
  assert (Z : feqb (0 : F) 0 = true) by (destruct (feqb_spec (0:F) 0); [reflexivity|now exfalso; auto]). rewrite Z.
  rewrite commit_setup. pose proof (sub_len p (from_coefs [eval p x])) as Ls. rewrite from_coefs_len1 in Ls.
  assert (E2 : Nat.leb (length q) (S n) = true) by (apply Nat.leb_le; lia). rewrite E2. exists q. split; [reflexivity|].
  intros y. rewrite <- V, hv_sub, hv_const, eval_hv. reflexivity.
Qed.

(** ** Batched openings *)
(** Sums with weights 1, u, u^2, ... *)
Fixpoint wsum {M : Mod F} (u : F) (l : list M) : M := match l with [] => m0 | a :: l' => (a + u *: wsum u l')%M end.
Definition defect s (c : G1) (x v : F) (w : G1) : G1 := ((s - x) *: w - (c - v *: base1))%M.
Fixpoint defects s (cs : list G1) (xs vs : list F) (ws : list G1) : list G1 :=
  match cs, xs, vs, ws with c :: cs, x :: xs, v :: vs, w :: ws => defect s c x v w :: defects s cs xs vs ws | _, _, _, _ => [] end.

Lemma diff_loop_ok s u : forall cs xs vs ws cur l r rv rc, length xs = length cs -> length vs = length cs -> length ws = length cs ->
  let '(l', r', rv', rc') := diff_loop cs xs vs ws u cur (l, r, rv, rc) in
  (s *: l' - (r' - rv' *: base1 + rc') = (s *: l - (r - rv *: base1 + rc)) + cur *: wsum u (defects s cs xs vs ws))%M.
Proof.
  induction cs as [|c cs IH]; intros [|x xs] [|v vs] [|w ws] cur l r rv rc L1 L2 L3; cbn [length] in *; try lia.
  - cbn [diff_loop defects wsum]. module_eq.
  - cbn [diff_loop]. specialize (IH xs vs ws (cur * u) (l + cur *: w)%M (r + x *: (cur *: w))%M (rv + v * cur) (rc + cur *: c)%M ltac:(lia) ltac:(lia) ltac:(lia)).
    destruct (diff_loop cs xs vs ws u (cur * u) _) as [[[l' r'] rv'] rc'].
    etransitivity; [exact IH|]. cbn [defects wsum]. unfold defect. module_eq.
Qed.
Lemma diff_iff n s u cs xs vs ws : (0 < length cs)%nat -> length xs = length cs -> length vs = length cs -> length ws = length cs ->
  batch_verify_diff_points e (setup n s) cs xs vs ws u = Ok tt <-> wsum u (defects s cs xs vs ws) = m0.
Proof.
  intros L0 L1 L2 L3. unfold batch_verify_diff_points. rewrite L1, L2, L3, Nat.eqb_refl. cbn [andb negb pp1 pp2 KzgModel.setup g1_powers].
  destruct cs as [|c cs], xs as [|x xs], vs as [|v vs], ws as [|w ws]; cbn [length] in *; try lia.
  pose proof (diff_loop_ok s u cs xs vs ws u w (x *: w)%M v c ltac:(lia) ltac:(lia) ltac:(lia)) as H.
  destruct (diff_loop cs xs vs ws u u _) as [[[l r] rv] rc]. rewrite pair_scale.
  assert (W : (s *: l - (r - rv *: base1 + rc))%M = wsum u (defects s (c :: cs) (x :: xs) (v :: vs) (w :: ws))).
  { rewrite H. cbn [defects wsum]. unfold defect. module_eq. }
  rewrite <- W, msub_0. destruct (meqb_spec (e (s *: l)%M base2) (e (r - rv *: base1 + rc)%M base2)) as [E|E]; split; intros X; try reflexivity; try discriminate.
  - apply pair_inj, E.
  - exfalso. apply E. now rewrite X.
Qed.

Lemma wsum_ext (u : F) (l : list G1) : (forall a, In a l -> a = m0) -> wsum u l = m0.
Proof.
  induction l as [|a l IH]; intros H; cbn [wsum]; [reflexivity|]. rewrite (H a (or_introl eq_refl)), IH by (intros; apply H; now right). module_eq.
Qed.
(** A weighted sum with as many zero weights as terms is zero in every term. *)
Fixpoint msyn (l : list G1) (z : F) : list G1 := match l with [] => [] | _ :: l' => match l' with [] => [] | _ => wsum z l' :: msyn l' z end end.
Lemma msyn_len l z : length (msyn l z) = (length l - 1)%nat.
Proof. induction l as [|a [|b l] IH]; cbn [msyn length] in *; [reflexivity..|]. rewrite IH. lia. Qed.
Lemma msyn_value l z x : wsum x l = (wsum z l + (x - z) *: wsum x (msyn l z))%M.
Proof.
  induction l as [|a [|b l] IH].
  - cbn [wsum msyn]. module_eq.
  - cbn [wsum msyn]. module_eq.
  - change (msyn (a :: b :: l) z) with (wsum z (b :: l) :: msyn (b :: l) z).
    change (wsum x (a :: b :: l)) with (a + x *: wsum x (b :: l))%M. rewrite IH at 1.
    change (wsum x (wsum z (b :: l) :: msyn (b :: l) z)) with (wsum z (b :: l) + x *: wsum x (msyn (b :: l) z))%M.
    change (wsum z (a :: b :: l)) with (a + z *: wsum z (b :: l))%M.
    generalize (wsum z (b :: l)), (wsum x (msyn (b :: l) z)). intros A B. module_eq.
Qed.
Lemma wsum_roots : forall us (l : list G1), NoDup us -> (length l <= length us)%nat -> (forall u, In u us -> wsum u l = m0) -> forall a, In a l -> a = m0.
Proof.
  induction us as [|u us IH]; intros l N L R a Ha.
  - destruct l; [destruct Ha|cbn in L; lia].
  - assert (Q : forall b, In b (msyn l u) -> b = m0).
    { apply IH; [now inversion N|rewrite msyn_len; cbn in L; lia|]. intros y Hy.
      pose proof (msyn_value l u y) as E. rewrite (R y (or_intror Hy)), (R u (or_introl eq_refl)), madd_0 in E.
      symmetry in E. apply smul_eq_0 in E. destruct E as [E|E]; [|exact E]. exfalso. inversion N; subst.
      apply (proj1 (fsub_0 F _ _)) in E. now subst y. }
    assert (T : forall l : list G1, wsum u l = m0 -> (forall b, In b (msyn l u) -> b = m0) -> forall a, In a l -> a = m0).
    { clear. induction l as [|a l IH]; intros W Q b Hb; [destruct Hb|]. destruct Hb as [<-|Hb].
      - destruct l as [|c l]; [cbn [wsum] in W; rewrite <- W; module_eq|].
        assert (Z : wsum u (c :: l) = m0) by (apply Q; left; reflexivity).
        change (wsum u (a :: c :: l)) with (a + u *: wsum u (c :: l))%M in W. rewrite Z in W. rewrite <- W. module_eq.
      - destruct l as [|c l]; [destruct Hb|]. apply IH; [apply Q; left; reflexivity| |exact Hb].
        intros d Hd. apply Q. right. exact Hd. }
    apply (T l); [apply R; now left|exact Q|exact Ha].
Qed.

(** ** One-point batches *)
Lemma batch_sum_ok alpha : forall vs (cs : list G1) mult (c : G1) v, length cs = length vs ->
  batch_sum cs vs alpha mult c v = ((c + mult *: wsum alpha cs)%M, v + mult * hv vs alpha).
Proof.
  induction vs as [|v0 vs IH]; intros [|c0 cs] mult c v L; cbn [length] in *; try lia; cbn [batch_sum wsum hv].
  - f_equal; [module_eq|ring].
  - rewrite IH by lia. f_equal; [module_eq|ring].
Qed.
Lemma batch_loop_hv (x alpha y : F) : forall ps mult h,
  hv (batch_loop ps x alpha mult h) y = hv h y + mult * (hv (map (fun p => hv p y) ps) alpha - hv (map (fun p => hv p x) ps) alpha).
Proof.
  induction ps as [|p ps IH]; intros mult h; cbn [batch_loop map hv]; [ring|].
  rewrite IH, hv_add, hv_scale, hv_sub, hv_const, eval_hv. ring.
Qed.
Lemma batch_loop_normal (x alpha : F) : forall ps mult (h : list F), normal h -> normal (batch_loop ps x alpha mult h).
Proof.
  induction ps as [|p ps IH]; intros mult h N; cbn [batch_loop]; [exact N|]. apply IH, add_normal, normal_nonempty, N.
Qed.
Lemma batch_loop_len (x alpha : F) n : (1 <= n)%nat -> forall ps mult (h : list F), (length h <= n)%nat -> (forall p, In p ps -> (length p <= n)%nat) ->
  (length (batch_loop ps x alpha mult h) <= n)%nat.
Proof.
  intros Hn. induction ps as [|p ps IH]; intros mult h L A; cbn [batch_loop]; [exact L|].
  apply IH; [|intros q Hq; apply A; now right].
  pose proof (add_len h (mul_scalar (sub p (from_coefs [eval p x])) mult)).
  pose proof (scale_len (sub p (from_coefs [eval p x])) mult). pose proof (sub_len p (from_coefs [eval p x])).
  rewrite from_coefs_len1 in *. pose proof (A p (or_introl eq_refl)). lia.
Qed.
Lemma batch_prove_ok draw n s t ps x maxd : ps <> [] -> (forall p, In p ps -> (length p <= S n)%nat) ->
  let alpha := fst (challenge draw (init_batch t maxd x) 0) in
  exists q, batch_prove draw (setup n s) t ps x maxd = Ok (com s q, init_batch t maxd x ++ [TDrawn 0]) /\
  (length q <= S n)%nat /\
  forall y, hv (map (fun p => hv p y) ps) alpha - hv (map (fun p => hv p x) ps) alpha = (y - x) * hv q y.
Proof.
  intros N L. cbv zeta. unfold batch_prove, challenge. cbn [fst]. set (alpha := draw _).
  assert (E : (match ps with [] => Panic | _ => let (alpha0, t') := (alpha, init_batch t maxd x ++ [TDrawn 0]) in
      bind (div_rem (batch_loop ps x alpha0 1 pzero) (from_zeroes [x])) (fun qr =>
      bind (is_zero (snd qr)) (fun z => if z then bind (commit (setup n s) (fst qr)) (fun c => Ok (c, t')) else Err)) end) =
      bind (div_rem (batch_loop ps x alpha 1 pzero) (from_zeroes [x])) (fun qr =>
      bind (is_zero (snd qr)) (fun z => if z then bind (commit (setup n s) (fst qr)) (fun c => Ok (c, init_batch t maxd x ++ [TDrawn 0])) else Err)))
    by (destruct ps; [now destruct N|reflexivity]).
  rewrite E, from_zeroes_linear. clear E.
  assert (Nz : normal (pzero : list F)) by (left; reflexivity).
  destruct (div_linear (batch_loop ps x alpha 1 pzero) _ x (batch_loop_normal _ _ _ _ _ Nz) eq_refl) as [q [Q [V [Nq Lq]]]].
  { rewrite batch_loop_hv. unfold pzero. rewrite hv_const. ring. }
  rewrite Q. cbn [bind fst snd]. unfold is_zero. cbn [degree length Nat.sub Nat.eqb bind].
  assert (Z : feqb (0 : F) 0 = true) by (destruct (feqb_spec (0:F) 0); [reflexivity|now exfalso; auto]). rewrite Z.
  rewrite commit_setup. pose proof (batch_loop_len x alpha (S n) ltac:(lia) ps 1 pzero ltac:(cbn; lia) L).
  assert (E2 : Nat.leb (length q) (S n) = true) by (apply Nat.leb_le; lia). rewrite E2. cbn [bind]. exists q.
  split; [reflexivity|]. split; [lia|]. intros y. rewrite <- V, batch_loop_hv. unfold pzero. rewrite hv_const. ring.
Qed.
End Kzg.
