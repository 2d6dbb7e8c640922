(** Primality certificates (Pocklington's criterion), used only to build the
    concrete prime fields that the code of /repo works over:
    the BLS12-381 scalar field and the Ristretto scalar field.  No code of /repo is modelled
    here; this file is number theory only. *)
From Coq Require Import ZArith Znumtheory List Lia.
From Coq Require Import ssreflect ssrfun ssrbool Permutation.
Import ListNotations.

(** ** The checker on [Z] *)

Open Scope Z_scope.

Fixpoint powmod_pos (a : Z) (e : positive) (n : Z) : Z :=
  match e with
  | xH => a mod n
  | xO e' => let r := powmod_pos a e' n in (r * r) mod n
  | xI e' => let r := powmod_pos a e' n in (((r * r) mod n) * a) mod n
  end.

Definition powmod (a e n : Z) : Z :=
  match e with
  | Zpos e' => powmod_pos a e' n
  | Z0 => 1 mod n
  | Zneg _ => 0
  end.

Lemma powmod_pos_spec a e n : n <> 0 -> powmod_pos a e n = (a ^ Zpos e) mod n.
Proof.
  intros Hn. induction e as [e IH|e IH|].
  - change (powmod_pos a e~1 n) with (((powmod_pos a e n * powmod_pos a e n) mod n * a) mod n).
    rewrite IH. rewrite (Pos2Z.inj_xI e).
    rewrite Z.pow_add_r; try lia. rewrite Z.pow_1_r.
    replace (2 * Z.pos e) with (Z.pos e + Z.pos e) by lia.
    rewrite Z.pow_add_r; try lia.
    rewrite <- Z.mul_mod by auto. rewrite Z.mul_mod_idemp_l; auto.
  - change (powmod_pos a e~0 n) with ((powmod_pos a e n * powmod_pos a e n) mod n).
    rewrite IH. rewrite (Pos2Z.inj_xO e).
    replace (2 * Z.pos e) with (Z.pos e + Z.pos e) by lia.
    rewrite Z.pow_add_r; try lia.
    rewrite <- Z.mul_mod by auto. reflexivity.
  - cbn. now rewrite Z.mul_1_r.
Qed.

Lemma powmod_spec a e n : n <> 0 -> 0 <= e -> powmod a e n = (a ^ e) mod n.
Proof.
  intros Hn He. destruct e as [|e|e]; try lia.
  - reflexivity.
  - apply powmod_pos_spec, Hn.
Qed.

(** The same power with Barrett reduction, which is what the kernel evaluates: the
    quotient is guessed with a precomputed reciprocal and the guess is checked, so
    that the result is correct whatever the guess. *)
Definition fmod (n k mu x : Z) : Z :=
  let q := Z.shiftr (Z.shiftr x (k - 1) * mu) (k + 1) in
  let r := x - q * n in
  if (0 <=? r) && (r <? n) then r
  else let r' := r - n in
       if (0 <=? r') && (r' <? n) then r' else x mod n.
Lemma fmod_spec n k mu x : 0 < n -> fmod n k mu x = x mod n.
Proof.
  intros Hn. unfold fmod. generalize (Z.shiftr (Z.shiftr x (k - 1) * mu) (k + 1)). intros q. cbv zeta.
  destruct (Z.leb_spec 0 (x - q * n)), (Z.ltb_spec (x - q * n) n); cbn [andb].
  1: apply (Z.mod_unique_pos x n q); lia.
  all: destruct (Z.leb_spec 0 (x - q * n - n)), (Z.ltb_spec (x - q * n - n) n); cbn [andb];
    try reflexivity; apply (Z.mod_unique_pos x n (q + 1)); lia.
Qed.
Fixpoint fpow_pos (a : Z) (e : positive) (n k mu : Z) : Z :=
  match e with
  | xH => a mod n
  | xO e' => let r := fpow_pos a e' n k mu in fmod n k mu (r * r)
  | xI e' => let r := fpow_pos a e' n k mu in fmod n k mu (fmod n k mu (r * r) * a)
  end.
Lemma fpow_pos_spec a e n k mu : 0 < n -> fpow_pos a e n k mu = powmod_pos a e n.
Proof.
  intros Hn. induction e as [e IH|e IH|]; cbn [fpow_pos powmod_pos].
  - rewrite !fmod_spec //. by rewrite IH.
  - rewrite !fmod_spec //. by rewrite IH.
  - reflexivity.
Qed.
Definition fastpow (a e n : Z) : Z :=
  match e with
  | Zpos e' => let k := Z.log2 n + 1 in fpow_pos a e' n k (2 ^ (2 * k) / n)
  | Z0 => 1 mod n
  | Zneg _ => 0
  end.
Lemma fastpow_spec a e n : 0 < n -> 0 <= e -> fastpow a e n = (a ^ e) mod n.
Proof.
  intros Hn He. rewrite -powmod_spec; try lia. destruct e as [|e|e]; try reflexivity.
  unfold fastpow, powmod. apply fpow_pos_spec, Hn.
Qed.

(** One certificate: [n] together with factors [(q, e, a)] of [n-1]. *)
Definition cert := (Z * list (Z * Z * Z))%type.

Definition check_factor (known : list Z) (n : Z) (f : Z * Z * Z) : bool :=
  let '(q, e, a) := f in
  (0 <? e) && existsb (Z.eqb q) known && (0 <=? a)
  && ((n - 1) mod (q ^ e) =? 0)
  && (let b := fastpow a ((n - 1) / q) n in
      (fastpow b q n =? 1) && (Z.gcd (b - 1) n =? 1)).

(** The product of the [q^e], provided the [q]s are pairwise distinct. *)
Fixpoint factored (fs : list (Z * Z * Z)) : Z :=
  match fs with
  | [] => 1
  | (q, e, _) :: fs' => q ^ e * factored fs'
  end.

Fixpoint distinct (fs : list (Z * Z * Z)) : bool :=
  match fs with
  | [] => true
  | (q, _, _) :: fs' => negb (existsb (fun f => Z.eqb q (fst (fst f))) fs') && distinct fs'
  end.

Definition check_cert (known : list Z) (c : cert) : bool :=
  let '(n, fs) := c in
  (1 <? n) && forallb (check_factor known n) fs && distinct fs
  && (n <? (factored fs + 1) * (factored fs + 1)).

Fixpoint no_div (n d : Z) (fuel : nat) : bool :=
  match fuel with
  | O => true
  | S f => negb (n mod d =? 0) && no_div n (d + 1) f
  end.

Definition small_prime (n : Z) : bool :=
  (1 <? n) && no_div n 2 (Z.to_nat (Z.sqrt n - 1)).

Fixpoint check_chain (known : list Z) (cs : list cert) : bool :=
  match cs with
  | [] => true
  | (n, fs) :: cs' =>
      (match fs with [] => small_prime n | _ => check_cert known (n, fs) end)
      && check_chain (n :: known) cs'
  end.

(** ** Fermat's little theorem *)
Notation zprime := Znumtheory.prime.

Definition zprod (l : list Z) : Z := fold_right Z.mul 1 l.

Lemma zprod_perm l l' : Permutation l l' -> zprod l = zprod l'.
Proof.
  unfold zprod. induction 1 as [|x l l' _ IH|x y l|l l' l'' _ IH1 _ IH2]; cbn [fold_right]; try lia.
Qed.

Lemma zprod_scale a p l : p <> 0 ->
  zprod (map (fun i => (a * i) mod p) l) mod p = (a ^ Z.of_nat (length l) * zprod l) mod p.
Proof.
  intros Hp. induction l as [|x l IH]; [reflexivity|].
  cbn [map zprod fold_right length]. fold (zprod l).
  fold (zprod (map (fun i => (a * i) mod p) l)).
  rewrite (Z.mul_mod_idemp_l _ _ _ Hp) (Z.mul_mod _ _ _ Hp) IH -(Z.mul_mod _ _ _ Hp).
  rewrite Nat2Z.inj_succ (Z.pow_succ_r _ _ (Nat2Z.is_nonneg _)). f_equal. ring.
Qed.

Lemma zprod_rel_prime p l : (forall x, In x l -> rel_prime p x) -> rel_prime p (zprod l).
Proof.
  induction l as [|x l IH]; intros H; cbn [zprod fold_right].
  - apply rel_prime_sym, rel_prime_1.
  - apply rel_prime_mult; [apply H; now left|]. apply IH. intros y Hy. apply H. now right.
Qed.

Lemma small_rel_prime p x : zprime p -> 1 <= x < p -> rel_prime p x.
Proof. intros zp H. apply rel_prime_sym. now apply rel_prime_le_prime. Qed.

(** Fermat's little theorem on [Z]: multiplication by [a] permutes [1..p-1]. *)
Lemma fermat_Z p a : zprime p -> 0 <= a -> ~ (p | a) -> (a ^ (p - 1)) mod p = 1.
Proof.
  intros zp a0 na. assert (p1 : 1 < p) by (apply prime_ge_2 in zp; lia).
  set (l := map Z.of_nat (seq 1 (Z.to_nat (p - 1)))).
  assert (Hin : forall x, In x l <-> 1 <= x < p).
  { intros x. unfold l. rewrite in_map_iff. split.
    - intros [k [<- Hk]]. apply in_seq in Hk. lia.
    - intros Hx. exists (Z.to_nat x). rewrite in_seq. lia. }
  assert (Hl : length l = Z.to_nat (p - 1)) by (unfold l; now rewrite map_length seq_length).
  assert (Hnd : NoDup l).
  { unfold l. apply FinFun.Injective_map_NoDup; [|apply seq_NoDup]. intros x y. apply Nat2Z.inj. }
  set (f := fun i => (a * i) mod p).
  assert (Hf : forall x, In x l -> In (f x) l).
  { intros x Hx. apply Hin in Hx. apply Hin. unfold f.
    assert (R := Z.mod_pos_bound (a * x) p ltac:(lia)).
    assert ((a * x) mod p <> 0); [|lia]. intros E.
    apply Z.mod_divide in E; [|lia]. apply prime_mult in E; [|exact zp].
    destruct E as [E|E]; [now apply na|]. apply Z.divide_pos_le in E; lia. }
  assert (Hinj : forall x y, In x l -> In y l -> f x = f y -> x = y).
  { intros x y Hx Hy E. apply Hin in Hx. apply Hin in Hy. unfold f in E.
    assert (D : (p | a * (x - y))).
    { replace (a * (x - y)) with (a * x - a * y) by ring.
      apply Z.mod_divide; [lia|]. rewrite Zminus_mod E Z.sub_diag. reflexivity. }
    apply prime_mult in D; [|exact zp]. destruct D as [D|D]; [now elim na|].
    destruct D as [k Hk]. assert (k = 0) by nia. subst k. lia. }
  assert (Hndf : NoDup (map f l)).
  { clear -Hnd Hinj. induction Hnd as [|x l Hx _ IH]; [constructor|]. cbn [map]. constructor.
    - rewrite in_map_iff. intros [y [Hy1 Hy2]]. apply Hx.
      rewrite -(Hinj y x (or_intror Hy2) (or_introl eq_refl) Hy1). exact Hy2.
    - apply IH. intros y z Hy Hz. apply Hinj; now right. }
  assert (HP : Permutation (map f l) l).
  { apply NoDup_Permutation_bis; [exact Hndf|now rewrite map_length|].
    intros y. rewrite in_map_iff. intros [x [<- Hx]]. now apply Hf. }
  assert (E := zprod_scale a p l ltac:(lia)). rewrite Hl (Z2Nat.id (p - 1) ltac:(lia)) in E.
  fold f in E. rewrite (zprod_perm _ _ HP) in E.
  assert (D : (p | zprod l * (a ^ (p - 1) - 1))).
  { apply Z.mod_divide; [lia|].
    replace (zprod l * (a ^ (p - 1) - 1)) with (a ^ (p - 1) * zprod l - zprod l) by ring.
    rewrite Zminus_mod -E Z.sub_diag. reflexivity. }
  apply Gauss in D; [|apply zprod_rel_prime; intros x Hx; apply small_rel_prime; [exact zp|now apply Hin]].
  destruct D as [k Hk]. replace (a ^ (p - 1)) with (1 + k * p) by lia.
  rewrite (Z.mod_add 1 k p ltac:(lia)). apply Z.mod_1_l. lia.
Qed.

Lemma pow_one_mod p a k j : 1 < p -> 0 <= k -> 0 <= j -> (p | a ^ k - 1) -> (p | a ^ (k * j) - 1).
Proof.
  intros p1 k0 j0 D. rewrite (Z.pow_mul_r a k j k0 j0).
  pattern j. apply natlike_ind; [rewrite Z.pow_0_r Z.sub_diag; apply Z.divide_0_r| |exact j0].
  intros x Hx IH. rewrite (Z.pow_succ_r _ _ Hx).
  replace (a ^ k * (a ^ k) ^ x - 1) with (a ^ k * ((a ^ k) ^ x - 1) + (a ^ k - 1)) by ring.
  apply Z.divide_add_r; [apply Z.divide_mul_r; exact IH|exact D].
Qed.

Lemma rel_prime_not_div q k : zprime q -> ~ (q | k) -> rel_prime q k.
Proof. intros. now apply prime_rel_prime. Qed.

Lemma rel_prime_pow_l q e k : 0 <= e -> rel_prime q k -> rel_prime (q ^ e) k.
Proof.
  intros e0 H. pattern e. apply natlike_ind; [rewrite Z.pow_0_r; apply rel_prime_1| |exact e0].
  intros x Hx IH. rewrite (Z.pow_succ_r _ _ Hx). apply rel_prime_sym, rel_prime_mult; now apply rel_prime_sym.
Qed.

Lemma pock_step_Z n q e a p :
  zprime p -> zprime q -> (p | n) -> 1 < n -> 0 < e -> 0 <= a ->
  (q ^ e | n - 1) -> (n | a ^ (n - 1) - 1) ->
  Z.gcd (a ^ ((n - 1) / q) - 1) n = 1 -> (q ^ e | p - 1).
Proof.
  intros zp zq pn n1 e0 a0 qe an gq.
  assert (p1 : 1 < p) by (apply prime_ge_2 in zp; lia).
  assert (q1 : 1 < q) by (apply prime_ge_2 in zq; lia).
  set (m := n - 1) in *. assert (m0 : 0 < m) by (unfold m; lia).
  assert (am : (p | a ^ m - 1)) by (eapply Z.divide_trans; eassumption).
  assert (na : ~ (p | a)).
  { intros D. assert (D2 : (p | a ^ m)).
    { replace m with (Z.succ (m - 1)) by lia. rewrite (Z.pow_succ_r a (m - 1) ltac:(lia)). now apply Z.divide_mul_l. }
    assert (D3 : (p | 1)).
    { replace 1 with (a ^ m - (a ^ m - 1)) by ring. now apply Z.divide_sub_r. }
    apply Z.divide_1_r_nonneg in D3; lia. }
  assert (fl : (p | a ^ (p - 1) - 1)).
  { apply Z.mod_divide; [lia|]. rewrite Zminus_mod (fermat_Z p a zp a0 na) (Z.mod_1_l p p1). reflexivity. }
  set (g := Z.gcd m (p - 1)).
  assert (g0 : 0 < g).
  { assert (H := Z.gcd_nonneg m (p - 1)). fold g in H. assert (g <> 0); [|lia].
    intros E. apply Z.gcd_eq_0_l in E. lia. }
  destruct (Z.gcd_divide_l m (p - 1)) as [k Hk]. fold g in Hk.
  assert (k0 : 0 < k) by (clear -Hk m0 g0; nia).
  assert (ag : (p | a ^ g - 1)).
  { destruct (Z.gcd_bezout m (p - 1) g eq_refl) as [u [v Huv]].
    set (t := Z.abs u + Z.abs v).
    set (x := u + t * (p - 1)). set (y := - v + t * m).
    assert (t0 : 0 <= t) by (unfold t; lia).
    assert (ts : forall s, 0 < s -> t <= t * s) by (clear -t0; intros; nia).
    assert (x0 : 0 <= x) by (unfold x; specialize (ts (p - 1) ltac:(lia)); unfold t in *; lia).
    assert (y0 : 0 <= y) by (unfold y; specialize (ts m m0); unfold t in *; lia).
    assert (py : 0 <= (p - 1) * y) by (apply Z.mul_nonneg_nonneg; lia).
    assert (E : m * x = g + (p - 1) * y) by (unfold x, y; rewrite -Huv; ring).
    assert (D1 := pow_one_mod p a m x p1 ltac:(lia) x0 am).
    assert (D2 := pow_one_mod p a (p - 1) y p1 ltac:(lia) y0 fl).
    rewrite E (Z.pow_add_r a g ((p - 1) * y) ltac:(lia) py) in D1.
    replace (a ^ g - 1) with ((a ^ g * a ^ ((p - 1) * y) - 1) - a ^ g * (a ^ ((p - 1) * y) - 1)) by ring.
    apply Z.divide_sub_r; [exact D1|]. apply Z.divide_mul_r, D2. }
  destruct (Zdivide_dec q k) as [[k' Hk']|Hq].
  - exfalso. assert (k'0 : 0 <= k') by (clear -Hk' k0 q1; nia).
    assert (Em : m / q = g * k').
    { replace m with (g * k' * q) by (rewrite Hk Hk'; ring). apply Z.div_mul. lia. }
    assert (D := pow_one_mod p a g k' p1 ltac:(lia) k'0 ag). rewrite -Em in D.
    assert (D3 : (p | 1)) by (rewrite -gq; apply Z.gcd_greatest; assumption).
    apply Z.divide_1_r_nonneg in D3; lia.
  - assert (rp : rel_prime (q ^ e) k) by (apply rel_prime_pow_l; [lia|]; now apply rel_prime_not_div).
    rewrite Hk in qe. apply Gauss in qe; [|exact rp].
    eapply Z.divide_trans; [exact qe|]. apply Z.gcd_divide_r.
Qed.

(** ** Soundness of the checker *)
Local Set SsrOldRewriteGoalsOrder.
Local Set Bullet Behavior "None".
Local Set Asymmetric Patterns.

Lemma pow_mod_base a q n : 0 < n -> 0 <= q -> ((a mod n) ^ q) mod n = (a ^ q) mod n.
Proof.
  intros Hn Hq. pattern q. apply natlike_ind; [reflexivity| |exact Hq].
  intros x Hx IH. rewrite !Z.pow_succ_r //.
  rewrite Z.mul_mod; last lia. rewrite IH Z.mod_mod; last lia. by rewrite -Z.mul_mod; last lia.
Qed.


Lemma rel_prime_pow q r e f :
  zprime q -> zprime r -> q <> r -> 0 <= e -> 0 <= f -> rel_prime (q ^ e) (r ^ f).
Proof.
  move=> zq zr ne e0 f0.
  have base : rel_prime q r.
    apply prime_rel_prime => // /prime_div_prime h. apply ne. by apply h.
  have aux : forall x y k, rel_prime x y -> 0 <= k -> rel_prime x (y ^ k).
    move=> x y k h k0. pattern k. apply: natlike_ind => //.
    - rewrite Z.pow_0_r. apply rel_prime_sym, rel_prime_1.
    - move=> j j0 IH. rewrite Z.pow_succ_r //. by apply rel_prime_mult.
  apply: (aux) => //. apply rel_prime_sym. apply: (aux) => //. by apply rel_prime_sym.
Qed.

Lemma factored_divides m fs :
  distinct fs = true ->
  (forall q e a, In (q, e, a) fs -> zprime q /\ 0 < e /\ (q ^ e | m)) ->
  (factored fs | m).
Proof.
  elim: fs => [|[[q e] a] fs IH] D H.
  - exists m. change (factored []) with 1. lia.
  - change (factored ((q, e, a) :: fs)) with (q ^ e * factored fs).
    move: D. cbn [distinct]. move/andP=> [D1 D2].
    have h1 : (factored fs | m).
      apply: IH => // q' e' a' i. apply: (H q' e' a'). by right.
    have [zq [e0 hq]] : zprime q /\ 0 < e /\ (q ^ e | m) by apply (H q e a); left.
    have rp : rel_prime (q ^ e) (factored fs).
      have D3 : forall f, In f fs -> q <> fst (fst f).
        move=> f i heq. move/negP: D1. apply. apply existsb_exists.
        exists f. split => //. by apply Z.eqb_eq.
      have H3 : forall q' e' a', In (q', e', a') fs -> zprime q' /\ 0 < e'.
        move=> q' e' a' i. have [? [? _]] := H q' e' a' (or_intror i). by split.
      clear -zq e0 D3 H3. elim: fs D3 H3 => [|[[q' e'] a'] fs IH] D3 H3.
      + apply rel_prime_sym, rel_prime_1.
      + change (rel_prime (q ^ e) (q' ^ e' * factored fs)).
        apply rel_prime_mult.
        * have [z' h'] := H3 q' e' a' (or_introl erefl).
          apply: rel_prime_pow => //; try lia.
          exact: (D3 (q', e', a') (or_introl erefl)).
        * apply: IH. move=> f i. apply: D3. by right.
          move=> q2 e2 a2 i. apply: (H3 q2 e2 a2). by right.
    case: h1 => k Hk.
    have : (q ^ e | k).
      apply: (Gauss _ (factored fs)) => //. by rewrite Z.mul_comm -Hk.
    move=> [j Hj]. exists j. rewrite Hk Hj. ring.
Qed.

Lemma prime_factor n : 1 < n -> exists p, zprime p /\ (p | n).
Proof.
  intros n1. assert (n0 : 0 <= n) by lia. revert n1. pattern n.
  apply Z_lt_induction; [|exact n0]. clear n n0. intros n IH n1.
  destruct (prime_dec n) as [H|H]; [exists n; split; [exact H|apply Z.divide_refl]|].
  destruct (not_prime_divide n n1 H) as [d [Hd Dd]].
  destruct (IH d ltac:(lia) ltac:(lia)) as [p [Hp Dp]]. exists p. split; [exact Hp|].
  eapply Z.divide_trans; eassumption.
Qed.

Lemma least_prime_factor n : 1 < n -> ~ zprime n -> exists p, zprime p /\ (p | n) /\ p * p <= n.
Proof.
  intros n1 np. destruct (not_prime_divide n n1 np) as [d [Hd [e He]]].
  assert (Hex : exists x, 1 < x /\ (x | n) /\ x * x <= n).
  { destruct (Z.le_gt_cases d e).
    - exists d. split; [lia|]. split; [exists e; exact He|]. nia.
    - exists e. split; [nia|]. split; [exists d; lia|]. nia. }
  destruct Hex as [x [x1 [Dx Hx]]]. destruct (prime_factor x x1) as [p [Hp Dp]].
  exists p. split; [exact Hp|]. split; [eapply Z.divide_trans; eassumption|].
  assert (p <= x) by (apply Z.divide_pos_le; [lia|exact Dp]).
  assert (1 < p) by (apply prime_ge_2 in Hp; lia). nia.
Qed.

Lemma check_cert_sound known n fs :
  (forall q, In q known -> zprime q) -> check_cert known (n, fs) = true -> zprime n.
Proof.
  move=> HK. rewrite /check_cert => /andP [/andP [/andP [n1 hf] hd] hb].
  move/Z.ltb_lt: n1 => n1. move/Z.ltb_lt: hb => hb.
  case: (prime_dec n) => // np. exfalso.
  have [p [zp [pn pp]]] := least_prime_factor n n1 np.
  have p1 : 1 < p by apply prime_ge_2 in zp; lia.
  have hdv : (factored fs | p - 1).
    apply: factored_divides => // q e a i.
    have := proj1 (forallb_forall _ _) hf _ i.
    rewrite /check_factor; cbv zeta => /andP [/andP [/andP [/andP [e0 kn] a0] hq] /andP [hp hg]].
    move/Z.ltb_lt: e0 => e0. move/Z.leb_le: a0 => a0.
    have zq : zprime q.
      apply: HK. move/existsb_exists: kn => [x [ix /Z.eqb_eq ->]]. exact ix.
    have q1 : 1 < q by apply prime_ge_2 in zq; lia.
    have qe : (q ^ e | n - 1).
      apply Z.mod_divide; last by apply/Z.eqb_eq.
      have := Z.pow_pos_nonneg q e. lia.
    split => //. split => //.
    move/Z.eqb_eq: hp. move/Z.eqb_eq: hg.
    have dq : (q | n - 1).
      apply: Z.divide_trans qe. exists (q ^ (e - 1)).
      rewrite -[X in _ * X]Z.pow_1_r -Z.pow_add_r; try lia. by f_equal; lia.
    have dq0 : 0 <= (n - 1) / q by apply Z.div_pos; lia.
    rewrite (fastpow_spec a); try lia. rewrite fastpow_spec; try lia.
    rewrite pow_mod_base; try lia. rewrite -Z.pow_mul_r; try lia.
    have -> : (n - 1) / q * q = n - 1.
      by case: dq => k ->; rewrite Z.div_mul; lia.
    move=> hg hp.
    apply: (pock_step_Z n q e a) => //.
    + apply Z.mod_divide; first lia.
      rewrite Zminus_mod hp (Z.mod_1_l n) //.
    + have -> : Z.gcd (a ^ ((n - 1) / q) - 1) n
               = Z.gcd ((a ^ ((n - 1) / q)) mod n - 1) n; last exact hg.
      set x := a ^ _. rewrite {1}(Z.div_mod x n); last lia.
      have -> : n * (x / n) + x mod n - 1 = (x mod n - 1) + (x / n) * n by ring.
      rewrite Z.gcd_comm (Z.gcd_comm _ n). apply Z.gcd_add_mult_diag_r.
  have hle : factored fs <= p - 1 by apply: Z.divide_pos_le => //; lia.
  have h0 : 0 <= factored fs \/ factored fs < 0 by lia.
  case: h0 => h0; first nia.
  (* a negative product is impossible: every factor is a prime power *)
  have : 0 < factored fs.
    clear -hf HK. elim: fs hf => [//|[[q e] a] fs IH] /= /andP [h1 h2].
    have q0 : 0 < q.
      move: h1 => /andP [/andP [/andP [/andP [_ kn] _] _] _].
      have zq : zprime q.
        apply: HK. move/existsb_exists: kn => [x [ix /Z.eqb_eq ->]]. exact ix.
      apply prime_ge_2 in zq. lia.
    have e0 : 0 < e.
      move: h1 => /andP [/andP [/andP [/andP [e0 _] _] _] _]. by apply/Z.ltb_lt.
    have := Z.pow_pos_nonneg q e q0. have := IH h2. nia.
  lia.
Qed.

Lemma no_div_spec n d fuel :
  0 < d -> no_div n d fuel = true ->
  forall x, d <= x < d + Z.of_nat fuel -> ~ (x | n).
Proof.
  elim: fuel d => [|f IH] d d0 H x hx; first lia.
  move: H => /= /andP [h1 h2].
  case: (Z.eq_dec x d) => [->|ne].
  - move=> dv. move/negP: h1. apply. apply/Z.eqb_eq. apply Z.mod_divide => //. lia.
  - apply: (IH (d + 1)) => //; lia.
Qed.

Lemma small_prime_sound n : small_prime n = true -> zprime n.
Proof.
  rewrite /small_prime => /andP [/Z.ltb_lt n1 h].
  case: (prime_dec n) => // np. exfalso.
  have [p [zp [pn pp]]] := least_prime_factor n n1 np.
  have p1 : 1 < p by apply prime_ge_2 in zp; lia.
  apply: (no_div_spec n 2 _ _ h p _ pn); first lia.
  have : p <= Z.sqrt n by apply Z.sqrt_le_square; lia.
  have := Z.sqrt_nonneg n. lia.
Qed.

Theorem check_chain_sound cs known :
  (forall q, In q known -> zprime q) -> check_chain known cs = true ->
  forall n fs, In (n, fs) cs -> zprime n.
Proof.
  elim: cs known => [//|[m gs] cs IH] known HK /= /andP [h1 h2] n fs.
  have zm : zprime m.
    case: gs h1 => [|g gs] h1; first by apply small_prime_sound.
    apply: (check_cert_sound known) => //. exact h1.
  move=> [[<- _] //|i].
  apply: (IH (m :: known) _ h2 n fs i). by move=> q [<- //|]; apply: HK.
Qed.

(** ** The concrete moduli *)

Definition bls_r : Z := 52435875175126190479447740508185965837690552500527637822603658699938581184513.
Definition ristretto_l : Z := 7237005577332262213973186563042994240857116359379907606001950938285454250989.

Definition chain : list cert := [
  (110573, []);
  (2653753, [(110573, 1, 2)]);
  (63690073, [(2653753, 1, 2)]);
  (254760293, [(63690073, 1, 2)]);
  (906349, []);
  (2, []);
  (52435875175126190479447740508185965837690552500527637822603658699938581184513, [(254760293, 2, 5); (906349, 2, 5); (2, 32, 5)]);
  (2551, []);
  (1224481, [(2551, 1, 2)]);
  (531581, []);
  (1257559732178653, [(1224481, 1, 2); (531581, 1, 2)]);
  (4434155615661930479, [(1257559732178653, 1, 2)]);
  (172054593956031949258510691, [(4434155615661930479, 1, 2)]);
  (19757330305831588566944191468367130476339, [(172054593956031949258510691, 1, 2)]);
  (276602624281642239937218680557139826668747, [(19757330305831588566944191468367130476339, 1, 2)]);
  (7237005577332262213973186563042994240857116359379907606001950938285454250989, [(276602624281642239937218680557139826668747, 1, 2)])].

Lemma chain_ok : check_chain [] chain = true.
Proof. vm_cast_no_check (erefl true). Qed.

Lemma chain_prime n : existsb (Z.eqb n) (map fst chain) = true -> zprime n.
Proof.
  move/existsb_exists => [x [i /Z.eqb_eq ->]].
  apply List.in_map_iff in i. destruct i as [[m fs] [<- i]].
  exact: (check_chain_sound chain [] _ chain_ok m fs i).
Qed.

Lemma bls_r_prime : zprime bls_r.
Proof. apply chain_prime. vm_compute. reflexivity. Qed.
Lemma ristretto_l_prime : zprime ristretto_l.
Proof. apply chain_prime. vm_compute. reflexivity. Qed.
