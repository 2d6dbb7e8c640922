(** Completeness of the basic TurboPLONK gadgets: the prover's own witness
    satisfies every gate the gadgets insert. *)
From Coq Require Import List ZArith Bool Lia ZifyBool ZifyNat Field.
From Verif Require Import Base Field PField TurboModel TurboSpec TurboProofs.
Import ListNotations.
Ltac Zify.zify_post_hook ::= Z.div_mod_to_equations.
Local Open Scope F_scope.

Section Honest.
Context (F : PField).
Add Field Fth : (f_th F).
Implicit Types (c : tcs F) (w : nat -> F) (S : tcs F -> Prop).
Notation has := (has F).
Notation stable := (stable F).

Lemma stable_and S S' : stable S -> stable S' -> stable (fun c => S c /\ S' c).
Proof. intros H H' c c' He [H1 H2]. split; [eapply H|eapply H']; eassumption. Qed.
Lemma stable_True : stable (fun _ => True).
Proof. intros c c' _ _. exact I. Qed.
Lemma stable_prop (P : Prop) : stable (fun _ => P).
Proof. intros c c' _ H. exact H. Qed.
Lemma stable_forall2 l vs : stable (fun c => Forall2 (has c) l vs).
Proof. intros c c' He H. induction H; constructor; [eapply has_stable; eassumption|assumption]. Qed.

Lemma f2len {A B} (R : A -> B -> Prop) l l' : Forall2 R l l' -> length l = length l'.
Proof. induction 1; cbn; congruence. Qed.
Lemma has_lt c i x : has c i x -> (i < nvars c)%nat.
Proof. intros [H _]. exact H. Qed.
Lemma has_val c i x : has c i x -> val c i = x.
Proof. intros [_ H]. exact H. Qed.

(** New variable plus one gate producing it. *)
Lemma honest_out (v : tcs F -> F) (g : nat -> gate F) S x :
  stable S ->
  (forall c, Inv c -> S c -> v c = x) ->
  (forall c o, Inv c -> S c -> has c o x ->
     wire_lt (nvars c) (g o) /\ gate_eq (val c) (g o) /\ gate_bool (val c) (g o)) ->
  honest (fun s => bnd (new_variable F (v s)) (fun o => bnd (push_gate F (g o)) (fun _ => ret o)) s)
         S (fun o c => has c o x /\ S c).
Proof.
  intros HS Hv Hg c HI Hc.
  assert (H : honest (bnd (new_variable F (v c)) (fun o => bnd (push_gate F (g o)) (fun _ => ret o)))
                     S (fun o c => has c o x /\ S c)).
  { rewrite (Hv c HI Hc). eapply honest_bind.
    { eapply honest_weak; [exact (honest_frame F _ _ _ S HS (honest_new F x))| |].
      - intros c' _ H. split; [exact I|exact H].
      - intros o c' _ H. exact H. }
    intros o. cbn beta. eapply honest_bind.
    { apply honest_push'.
      - apply stable_gatefree, stable_and; [apply has_stable|exact HS].
      - intros c' HI' [H1 H2]. apply (Hg c' o HI' H2 H1).
      - intros c' HI' [H1 H2]. apply (Hg c' o HI' H2 H1). }
    intros u. eapply honest_weak; [apply honest_ret| |].
    - intros c' _ H. exact H.
    - intros a c' _ [-> H]. exact H. }
  exact (H c HI Hc).
Qed.

(** One gate. *)
Lemma honest_gate (g : gate F) S :
  stable S ->
  (forall c, Inv c -> S c -> wire_lt (nvars c) g /\ gate_eq (val c) g /\ gate_bool (val c) g) ->
  honest (push_gate F g) S (fun _ c => S c).
Proof.
  intros HS Hg. apply honest_push'.
  - now apply stable_gatefree.
  - intros c HI Hc. apply (Hg c HI Hc).
  - intros c HI Hc. apply (Hg c HI Hc).
Qed.

Lemma nobool w g : g_bool g = false -> gate_bool (F := F) w g.
Proof. intros H H'. rewrite H in H'. discriminate. Qed.

Lemma h_linear_combine S a b (c0 : nat) d k1 k2 k3 k4 xa xb xc xd :
  stable S ->
  (forall c, Inv c -> S c -> has c a xa /\ has c b xb /\ has c c0 xc /\ has c d xd) ->
  honest (linear_combine F a b c0 d k1 k2 k3 k4) S
         (fun o c => has c o (k1 * xa + k2 * xb + k3 * xc + k4 * xd) /\ S c).
Proof.
  intros HS H. unfold linear_combine.
  apply (honest_out (fun s => val s a * k1 + val s b * k2 + val s c0 * k3 + val s d * k4)
                    (fun o => lc_row F a b c0 d o k1 k2 k3 k4)); [exact HS| |].
  - intros c HI Hc. destruct (H c HI Hc) as [[_ H1] [[_ H2] [[_ H3] [_ H4]]]]. rewrite H1, H2, H3, H4. ring.
  - intros c o HI Hc [Ho1 Ho2]. destruct (H c HI Hc) as [[L1 H1] [[L2 H2] [[L3 H3] [L4 H4]]]].
    split; [split; [cbn; lia|exact I]|]. split; [|now apply nobool].
    apply lc_row_eq. rewrite Ho2, H1, H2, H3, H4. reflexivity.
Qed.
Lemma h_lc_bool S a b (c0 : nat) d k1 k2 k3 k4 xa xb xc xd :
  stable S -> boolean xb -> boolean xc -> boolean xd ->
  (forall c, Inv c -> S c -> has c a xa /\ has c b xb /\ has c c0 xc /\ has c d xd) ->
  honest (bnd (linear_combine F a b c0 d k1 k2 k3 k4) (fun o => bnd (attach_boolean F) (fun _ => ret o))) S
         (fun o c => has c o (k1 * xa + k2 * xb + k3 * xc + k4 * xd) /\ S c).
Proof.
  intros HS Bb Bc Bd H.
  apply (honest_out (fun s => val s a * k1 + val s b * k2 + val s c0 * k3 + val s d * k4)
                    (fun o => mark F (lc_row F a b c0 d o k1 k2 k3 k4))); [exact HS| |].
  - intros c HI Hc. destruct (H c HI Hc) as [[_ H1] [[_ H2] [[_ H3] [_ H4]]]]. rewrite H1, H2, H3, H4. ring.
  - intros c o HI Hc [Ho1 Ho2]. destruct (H c HI Hc) as [[L1 H1] [[L2 H2] [[L3 H3] [L4 H4]]]].
    split; [split; [cbn; lia|exact I]|]. split.
    + apply (lc_row_eq F (val c) a b c0 d o). rewrite Ho2, H1, H2, H3, H4. reflexivity.
    + intros _. cbn. rewrite H2, H3, H4. auto.
Qed.
Lemma h_lc_gate_bool S a b (c0 : nat) d o k1 k2 k3 k4 xa xb xc xd xo :
  stable S -> boolean xb -> boolean xc -> boolean xd ->
  (forall c, Inv c -> S c -> has c a xa /\ has c b xb /\ has c c0 xc /\ has c d xd /\ has c o xo) ->
  xo = k1 * xa + k2 * xb + k3 * xc + k4 * xd ->
  honest (bnd (insert_lc_gate F a b c0 d o k1 k2 k3 k4) (fun _ => attach_boolean F)) S (fun _ c => S c).
Proof.
  intros HS Bb Bc Bd H E.
  change (honest (push_gate F (mark F (lc_row F a b c0 d o k1 k2 k3 k4))) S (fun _ c => S c)).
  apply honest_gate; [exact HS|].
  intros c HI Hc. destruct (H c HI Hc) as [[L1 H1] [[L2 H2] [[L3 H3] [[L4 H4] [L5 H5]]]]].
  split; [split; [cbn; lia|exact I]|]. split.
  - apply (lc_row_eq F (val c) a b c0 d o). rewrite H1, H2, H3, H4, H5. exact E.
  - intros _. cbn. rewrite H2, H3, H4. auto.
Qed.
Lemma h_lc_gate S a b (c0 : nat) d o k1 k2 k3 k4 xa xb xc xd xo :
  stable S ->
  (forall c, Inv c -> S c -> has c a xa /\ has c b xb /\ has c c0 xc /\ has c d xd /\ has c o xo) ->
  xo = k1 * xa + k2 * xb + k3 * xc + k4 * xd ->
  honest (insert_lc_gate F a b c0 d o k1 k2 k3 k4) S (fun _ c => S c).
Proof.
  intros HS H E. apply honest_gate; [exact HS|].
  intros c HI Hc. destruct (H c HI Hc) as [[L1 H1] [[L2 H2] [[L3 H3] [[L4 H4] [L5 H5]]]]].
  split; [split; [cbn; lia|exact I]|]. split; [|now apply nobool].
  apply (lc_row_eq F (val c) a b c0 d o). rewrite H1, H2, H3, H4, H5. exact E.
Qed.
Lemma h_add S l r x y : stable S -> (forall c, Inv c -> S c -> has c l x /\ has c r y) ->
  honest (add F l r) S (fun o c => has c o (x + y) /\ S c).
Proof.
  intros HS H. apply (honest_out (fun s => val s l + val s r) (fun o => lc_row F l r 0 0 o 1 1 0 0)); [exact HS| |].
  - intros c HI Hc. destruct (H c HI Hc) as [[_ H1] [_ H2]]. now rewrite H1, H2.
  - intros c o HI Hc [Ho1 Ho2]. destruct (H c HI Hc) as [[L1 H1] [L2 H2]].
    pose proof (has_zero F c HI) as [Z1 Z2].
    split; [split; [cbn; lia|exact I]|]. split; [|now apply nobool].
    apply lc_row_eq. rewrite Ho2, H1, H2, Z2. ring.
Qed.
Lemma h_sub S l r x y : stable S -> (forall c, Inv c -> S c -> has c l x /\ has c r y) ->
  honest (sub F l r) S (fun o c => has c o (x - y) /\ S c).
Proof.
  intros HS H. apply (honest_out (fun s => val s l - val s r) (fun o => lc_row F l r 0 0 o 1 (- (1)) 0 0)); [exact HS| |].
  - intros c HI Hc. destruct (H c HI Hc) as [[_ H1] [_ H2]]. now rewrite H1, H2.
  - intros c o HI Hc [Ho1 Ho2]. destruct (H c HI Hc) as [[L1 H1] [L2 H2]].
    pose proof (has_zero F c HI) as [Z1 Z2].
    split; [split; [cbn; lia|exact I]|]. split; [|now apply nobool].
    apply lc_row_eq. rewrite Ho2, H1, H2, Z2. ring.
Qed.
Lemma h_mul S l r x y : stable S -> (forall c, Inv c -> S c -> has c l x /\ has c r y) ->
  honest (mul F l r) S (fun o c => has c o (x * y) /\ S c).
Proof.
  intros HS H. apply (honest_out (fun s => val s l * val s r) (fun o => mul_row F l r o)); [exact HS| |].
  - intros c HI Hc. destruct (H c HI Hc) as [[_ H1] [_ H2]]. now rewrite H1, H2.
  - intros c o HI Hc [Ho1 Ho2]. destruct (H c HI Hc) as [[L1 H1] [L2 H2]].
    pose proof (has_zero F c HI) as [Z1 Z2].
    split; [split; [cbn; lia|exact I]|]. split; [|now apply nobool].
    apply mul_row_eq. now rewrite Ho2, H1, H2.
Qed.
Lemma h_mul_gate S l r o x y z : stable S ->
  (forall c, Inv c -> S c -> has c l x /\ has c r y /\ has c o z) -> z = x * y ->
  honest (insert_mul_gate F l r o) S (fun _ c => S c).
Proof.
  intros HS H E. apply honest_gate; [exact HS|]. intros c HI Hc.
  destruct (H c HI Hc) as [[L1 H1] [[L2 H2] [L3 H3]]]. pose proof (has_zero F c HI) as [Z1 Z2].
  split; [split; [cbn; lia|exact I]|]. split; [|now apply nobool].
  apply mul_row_eq. now rewrite H1, H2, H3.
Qed.
Lemma h_const_gate S v k : stable S -> (forall c, Inv c -> S c -> has c v k) ->
  honest (insert_constant_gate F v k) S (fun _ c => S c).
Proof.
  intros HS H. apply honest_gate; [exact HS|]. intros c HI Hc. destruct (H c HI Hc) as [L1 H1].
  split; [split; [cbn; lia|exact I]|]. split; [|now apply nobool]. now apply const_row_eq.
Qed.
Lemma h_pub S v : stable S -> (forall c, Inv c -> S c -> (v < nvars c)%nat) ->
  honest (prepare_pi_variable F v) S (fun _ c => S c).
Proof.
  intros HS H. apply honest_gate; [exact HS|]. intros c HI Hc. specialize (H c HI Hc).
  split; [split; [cbn; lia|exact H]|]. split; [|now apply nobool]. apply pub_row_eq.
Qed.
Lemma h_equal S l r x : stable S -> (forall c, Inv c -> S c -> has c l x /\ has c r x) ->
  honest (equal F l r) S (fun _ c => S c).
Proof.
  intros HS H. apply (h_lc_gate S l r 0%nat 0%nat 0%nat 1 (- (1)) 0 0 x x 0 0 0); [exact HS| |ring].
  intros c HI Hc. destruct (H c HI Hc). pose proof (has_zero F c HI). auto.
Qed.
Lemma h_boolean_gate S v x : stable S -> boolean x -> (forall c, Inv c -> S c -> has c v x) ->
  honest (insert_boolean_gate F v) S (fun _ c => S c).
Proof.
  intros HS B H. apply (h_mul_gate S v v v x x x); [exact HS| |].
  - intros c HI Hc. specialize (H c HI Hc). auto.
  - destruct B as [->| ->]; ring.
Qed.
Lemma h_new S x : stable S -> honest (new_variable F x) S (fun o c => has c o x /\ S c).
Proof.
  intros HS. eapply honest_weak; [exact (honest_frame F _ _ _ S HS (honest_new F x))| |].
  - intros c' _ H. split; [exact I|exact H].
  - intros o c' _ H. exact H.
Qed.
Lemma h_ret S {A} (a : A) : honest (ret a) S (fun o c => o = a /\ S c).
Proof. apply honest_ret. Qed.
Lemma h_select S v0 v1 b x0 x1 xb : stable S -> boolean xb ->
  (forall c, Inv c -> S c -> has c v0 x0 /\ has c v1 x1 /\ has c b xb) ->
  honest (select F v0 v1 b) S (fun o c => has c o (if f_dec xb 0 then x0 else x1) /\ S c).
Proof.
  intros HS B H.
  apply (honest_out (fun s => if f_dec (val s b) 0 then val s v0 else val s v1) (fun o => select_row F v0 v1 b o)); [exact HS| |].
  - intros c HI Hc. destruct (H c HI Hc) as [[_ H1] [[_ H2] [_ H3]]]. now rewrite H1, H2, H3.
  - intros c o HI Hc [Ho1 Ho2]. destruct (H c HI Hc) as [[L1 H1] [[L2 H2] [L3 H3]]].
    split; [split; [cbn; lia|exact I]|]. split; [|now apply nobool].
    apply select_row_eq. rewrite Ho2, H1, H2, H3. destruct (f_dec xb 0) as [->|n]; [ring|].
    destruct B as [->| ->]; [contradiction|ring].
Qed.

Lemma h_peek S i x {A} (f : F -> CS F A) Q : stable S ->
  (forall c, Inv c -> S c -> has c i x) -> honest (f x) S Q -> honest (bnd (peek F i) f) S Q.
Proof.
  intros HS H Hf c HI Hc. unfold bnd, peek. destruct (H c HI Hc) as [_ ->]. exact (Hf c HI Hc).
Qed.

Lemma h_is_equal_or_not S l r x y : stable S ->
  (forall c, Inv c -> S c -> has c l x /\ has c r y) ->
  honest (is_equal_or_not_equal F l r) S
    (fun p c => has c (fst p) (if f_dec x y then 1 else 0) /\
                has c (snd p) (if f_dec x y then 0 else 1) /\ S c).
Proof.
  intros HS H. unfold is_equal_or_not_equal.
  eapply honest_bind; [apply (h_sub S l r x y HS H)|]. intros d. cbn beta.
  assert (S1 : stable (fun c => has c d (x - y) /\ S c)) by (apply stable_and; [apply has_stable|exact HS]).
  apply (h_peek _ d (x - y)); [exact S1|intros c _ Hc; apply Hc|].
  eapply honest_bind; [apply (h_new _ _ S1)|]. intros inv. cbn beta.
  assert (S2 : stable (fun c => has c inv (inv_or_zero F (x - y)) /\ has c d (x - y) /\ S c))
    by (apply stable_and; [apply has_stable|exact S1]).
  eapply honest_bind.
  { apply (h_mul _ d inv (x - y) (inv_or_zero F (x - y)) S2). intros c _ Hc. split; apply Hc. }
  intros m. cbn beta.
  assert (Em : (x - y) * inv_or_zero F (x - y) = if f_dec x y then 0 else 1).
  { unfold inv_or_zero. destruct (f_dec x y) as [->|n].
    - destruct (f_dec (y - y) 0) as [_|n']; [ring|]. exfalso. apply n'. ring.
    - destruct (f_dec (x - y) 0) as [e|n']; [|field; exact n']. exfalso. apply n.
      apply (proj1 (fsub_0 F _ _)). exact e. }
  rewrite Em.
  set (M := if f_dec x y then 0 else 1) in *.
  assert (S3 : stable (fun c => has c m M /\ has c inv (inv_or_zero F (x - y)) /\ has c d (x - y) /\ S c))
    by (apply stable_and; [apply has_stable|exact S2]).
  eapply honest_bind.
  { apply (h_sub _ one_var m 1 M S3). intros c HI Hc. split; [now apply has_one|apply Hc]. }
  intros e. cbn beta.
  set (T := fun c => has c e (1 - M) /\ has c m M /\ has c inv (inv_or_zero F (x - y)) /\ has c d (x - y) /\ S c).
  assert (S4 : stable T) by (apply stable_and; [apply has_stable|exact S3]).
  eapply honest_bind.
  { apply (h_mul_gate T d e zero_var (x - y) (1 - M) 0 S4).
    - intros c HI Hc. unfold T in Hc. split; [apply Hc|]. split; [apply Hc|now apply has_zero].
    - unfold M. destruct (f_dec x y) as [->|n]; ring. }
  intros u. cbn beta. eapply honest_weak; [apply h_ret| |].
  - intros c _ Hc. exact Hc.
  - intros p c _ [-> Hc]. cbn [fst snd]. unfold T in Hc. split; [|split; apply Hc].
    replace (if f_dec x y then 1 else 0) with (1 - M); [apply Hc|]. unfold M. destruct (f_dec x y); ring.
Qed.

(** ** Range check *)
Definition hornerF (a : F) (l : list F) : F := fold_left (fun x v => x + x + v) l a.

Lemma h_new_variables vs : forall S, stable S ->
  honest (new_variables F vs) S (fun l c => Forall2 (has c) l vs /\ S c).
Proof.
  induction vs as [|v vs IH]; intros S HS; cbn [new_variables].
  - eapply honest_weak; [apply h_ret| |]; [intros c _ H; exact H|]. intros l c _ [-> H]. split; [constructor|exact H].
  - eapply honest_bind; [apply (h_new S v HS)|]. intros i. cbn beta.
    assert (S1 : stable (fun c => has c i v /\ S c)) by (apply stable_and; [apply has_stable|exact HS]).
    eapply honest_bind; [apply (IH _ S1)|]. intros l. cbn beta.
    eapply honest_weak; [apply h_ret| |]; [intros c _ H; exact H|].
    intros l' c _ [-> [H1 [H2 H3]]]. split; [constructor; assumption|exact H3].
Qed.

Lemma h_range_loop m : forall S acc a top vs, stable S -> Forall boolean vs ->
  (3 * m <= length vs)%nat ->
  honest (range_loop F m acc top) (fun c => has c acc a /\ Forall2 (has c) top vs /\ S c)
    (fun r c => has c (fst r) (hornerF a (firstn (3 * m) vs)) /\ Forall2 (has c) (snd r) (skipn (3 * m) vs) /\ S c).
Proof.
  induction m as [|m IH]; intros S acc a top vs HS HB Hl.
  - assert (E : range_loop F 0 acc top = ret (acc, top)) by (destruct top; reflexivity). rewrite E.
    eapply honest_weak; [apply h_ret| |]; [intros c _ H; exact H|]. intros r c _ [-> H]. exact H.
  - destruct vs as [|x [|y [|z vs]]]; cbn [length] in Hl; try lia.
    destruct top as [|tx [|ty [|tz top]]];
      try (intros c _ [_ [H2 _]]; exfalso; apply f2len in H2; cbn in H2; lia).
    inversion HB as [|? ? Bx HB1]; subst. inversion HB1 as [|? ? By HB2]; subst.
    inversion HB2 as [|? ? Bz HB3]; subst.
    cbn [range_loop].
    set (T := fun c => has c acc a /\ Forall2 (has c) (tx :: ty :: tz :: top) (x :: y :: z :: vs) /\ S c).
    assert (ST : stable T) by (apply stable_and; [apply has_stable|apply stable_and; [apply stable_forall2|exact HS]]).
    set (a' := fofZ 8 * a + fofZ 4 * x + fofZ 2 * y + fofZ 1 * z).
    assert (H1 : honest (bnd (bnd (linear_combine F acc tx ty tz (fofZ 8) (fofZ 4) (fofZ 2) (fofZ 1))
         (fun o => bnd (attach_boolean F) (fun _ => ret o))) (fun o => range_loop F m o top)) T
      (fun r c => has c (fst r) (hornerF a (firstn (3 * Datatypes.S m) (x :: y :: z :: vs))) /\
                  Forall2 (has c) (snd r) (skipn (3 * Datatypes.S m) (x :: y :: z :: vs)) /\ S c)).
    2:{ intros c HI Hc. exact (H1 c HI Hc). }
    eapply honest_bind.
    { apply (h_lc_bool T acc tx ty tz (fofZ 8) (fofZ 4) (fofZ 2) (fofZ 1) a x y z ST Bx By Bz).
      intros c _ [A1 [A2 _]]. inversion A2 as [|? ? ? ? B1 A3]; subst. inversion A3 as [|? ? ? ? B2 A4]; subst.
      inversion A4; subst. auto. }
    intros o. cbn beta. fold a'.
    eapply honest_weak; [apply (IH S o a' top vs HS HB3); lia| |].
    + intros c _ [A1 [_ [A2 A3]]]. inversion A2 as [|? ? ? ? _ A4]; subst. inversion A4 as [|? ? ? ? _ A5]; subst.
      inversion A5; subst. auto.
    + intros r c _ H. replace (3 * Datatypes.S m)%nat with (3 + 3 * m)%nat by lia. cbn [firstn skipn Nat.add].
      replace (hornerF a (x :: y :: z :: firstn (3 * m) vs)) with (hornerF a' (firstn (3 * m) vs)); [exact H|].
      unfold hornerF. cbn [fold_left]. f_equal. unfold a'. rewrite f8, f4, f2, fone. ring.
Qed.

Lemma bit_boolean z i : boolean (bit F z i).
Proof. unfold bit. destruct (Z.testbit z (Z.of_nat i)); [right|left]; reflexivity. Qed.

(** The low [n] bits, from the low end, add up to [z mod 2^n]. *)
Definition fbitsF (l : list F) : F := fold_right (fun v x => v + (x + x)) 0 l.
Lemma hornerF_fbits l : hornerF 0 (rev l) = fbitsF l.
Proof.
  induction l as [|v l IH]; [reflexivity|]. cbn [rev fbitsF fold_right]. fold (fbitsF l).
  unfold hornerF in *. rewrite fold_left_app, IH. cbn. ring.
Qed.
Lemma fbitsF_bits n : forall z k,
  fbitsF (map (bit F z) (seq k n)) = fofZ ((Z.shiftr z (Z.of_nat k)) mod 2 ^ Z.of_nat n).
Proof.
  induction n as [|n IH]; intros z k.
  - cbn [seq map fbitsF fold_right]. change (2 ^ Z.of_nat 0)%Z with 1%Z. now rewrite Z.mod_1_r.
  - cbn [seq map fbitsF fold_right]. fold (fbitsF (map (bit F z) (seq (S k) n))). rewrite IH.
    set (y := Z.shiftr z (Z.of_nat k)).
    assert (E : Z.shiftr z (Z.of_nat (S k)) = (y / 2)%Z).
    { unfold y. rewrite Nat2Z.inj_succ. rewrite <- Z.add_1_r, <- Z.shiftr_shiftr by lia.
      rewrite (Z.shiftr_div_pow2 _ 1) by lia. reflexivity. }
    rewrite E.
    assert (Eb : bit F z k = fofZ (y mod 2)).
    { unfold bit, y. replace (Z.of_nat k) with (0 + Z.of_nat k)%Z at 1 by lia.
      rewrite <- Z.shiftr_spec by lia. rewrite Z.bit0_mod || rewrite <- Z.bit0_mod.
      destruct (Z.testbit (Z.shiftr z (Z.of_nat k)) 0); reflexivity. }
    rewrite Eb, <- !fofZ_add. f_equal.
    rewrite Nat2Z.inj_succ, Z.pow_succ_r by lia.
    rewrite (Z.rem_mul_r y 2 (2 ^ Z.of_nat n)) by lia. lia.
Qed.

Lemma Forall2_rev' {A B} (R : A -> B -> Prop) l l' : Forall2 R l l' -> Forall2 R (rev l) (rev l').
Proof. induction 1; [constructor|]. cbn. apply Forall2_app; [assumption|now constructor]. Qed.

(** The part of [range_check] after the bits are chosen. *)
Definition range_body (v n : nat) (b : list nat) : CS F (list nat) :=
  match rev b with
  | [] => ret b
  | top :: rest =>
      bnd (insert_boolean_gate F top) (fun _ =>
      bnd (range_loop F ((n - 2) / 3) top rest) (fun r =>
      bnd (match snd r with
           | [b0] => insert_lc_gate F (fst r) b0 0 0 v (fofZ 2) (fofZ 1) 0 0
           | [b1; b0] => insert_lc_gate F (fst r) b1 b0 0 v (fofZ 4) (fofZ 2) (fofZ 1) 0
           | b2 :: b1 :: b0 :: _ => insert_lc_gate F (fst r) b2 b1 b0 v (fofZ 8) (fofZ 4) (fofZ 2) (fofZ 1)
           | [] => insert_lc_gate F (fst r) 0 0 0 v (fofZ 8) (fofZ 4) (fofZ 2) (fofZ 1)
           end) (fun _ =>
      bnd (attach_boolean F) (fun _ => ret b))))
  end.
Lemma range_check_body v n : range_check F v n =
  fun s => bnd (new_variables F (map (bit F (toZ (val s v))) (seq 0 n))) (range_body v n) s.
Proof. reflexivity. Qed.

(** Any boolean values with the right sum pass. *)
Lemma h_range_body S v n vs x : stable S -> (2 <= n)%nat -> length vs = n -> Forall boolean vs ->
  fbitsF vs = x -> (forall c, Inv c -> S c -> has c v x) ->
  honest (bnd (new_variables F vs) (range_body v n)) S (fun b c => Forall2 (has c) b vs /\ S c).
Proof.
  intros HS Hn Hlen HB0 Hsum0 Hv. unfold range_body.
  assert (HB : Forall boolean (rev vs)) by now apply Forall_rev.
  assert (Hsum : hornerF 0 (rev vs) = x) by now rewrite hornerF_fbits.
  clear HB0 Hsum0.
  eapply honest_bind; [apply (h_new_variables vs S HS)|]. intros b. cbn beta.
  set (T := fun c => Forall2 (has c) b vs /\ S c).
  assert (ST : stable T) by (apply stable_and; [apply stable_forall2|exact HS]).
  destruct (rev b) as [|top rest] eqn:Er.
  { intros c _ [H _]. apply Forall2_rev' in H. rewrite Er in H. apply f2len in H.
    rewrite rev_length in H. cbn in H. lia. }
  destruct (rev vs) as [|xt xs] eqn:Ev.
  { apply (f_equal (@length F)) in Ev. rewrite rev_length in Ev. cbn in Ev. lia. }
  assert (Hxs : length xs = (n - 1)%nat).
  { apply (f_equal (@length F)) in Ev. rewrite rev_length in Ev. cbn in Ev. lia. }
  pose proof (Forall_inv HB) as Bt. pose proof (Forall_inv_tail HB) as Bxs.
  assert (HT : forall c, T c -> has c top xt /\ Forall2 (has c) rest xs).
  { intros c [H _]. apply Forall2_rev' in H. rewrite Er, Ev in H. inversion H. auto. }
  eapply honest_bind.
  { apply (h_boolean_gate T top xt ST Bt). intros c _ Hc. apply (HT c Hc). }
  intros u. cbn beta.
  set (m := ((n - 2) / 3)%nat).
  eapply honest_bind.
  { eapply honest_weak; [apply (h_range_loop m T top xt rest xs ST Bxs); unfold m; lia| |].
    - intros c _ Hc. destruct (HT c Hc). auto.
    - intros r c _ H. exact H. }
  intros r. cbn beta.
  set (rem := skipn (3 * m) xs). set (aa := hornerF xt (firstn (3 * m) xs)).
  assert (Hrem : length rem = (length xs - 3 * m)%nat) by (unfold rem; apply skipn_length).
  assert (Hx2 : x = hornerF aa rem).
  { rewrite <- Hsum. unfold hornerF at 1. cbn [fold_left]. fold (hornerF (0 + 0 + xt) xs).
    unfold aa, rem. unfold hornerF. rewrite <- fold_left_app, firstn_skipn. f_equal. ring. }
  assert (Brem : Forall boolean rem).
  { unfold rem. rewrite <- (firstn_skipn (3 * m) xs) in Bxs. apply Forall_app in Bxs. apply Bxs. }
  clearbody aa rem.
  set (U := fun c => has c (fst r) aa /\ Forall2 (has c) (snd r) rem /\ T c).
  assert (SU : stable U).
  { apply stable_and; [apply has_stable|]. apply stable_and; [apply stable_forall2|exact ST]. }
  assert (Hrl : length rem = 1%nat \/ length rem = 2%nat \/ length rem = 3%nat) by (unfold m in Hrem; lia).
  assert (B0 : boolean (F := F) 0) by (now left).
  assert (G : forall b1 b2 b3 y1 y2 y3 k1 k2 k3 k4,
    boolean y1 -> boolean y2 -> boolean y3 ->
    (forall c, Inv c -> U c -> has c b1 y1 /\ has c b2 y2 /\ has c b3 y3) ->
    x = k1 * aa + k2 * y1 + k3 * y2 + k4 * y3 ->
    honest (bnd (insert_lc_gate F (fst r) b1 b2 b3 v k1 k2 k3 k4) (fun _ => bnd (attach_boolean F) (fun _ => ret b))) U
      (fun b' c => Forall2 (has c) b' vs /\ S c)).
  { intros b1 b2 b3 y1 y2 y3 k1 k2 k3 k4 B1 B2 B3 HU E.
    change (honest (bnd (bnd (insert_lc_gate F (fst r) b1 b2 b3 v k1 k2 k3 k4) (fun _ => attach_boolean F)) (fun _ => ret b)) U
      (fun b' c => Forall2 (has c) b' vs /\ S c)).
    eapply honest_bind.
    { apply (h_lc_gate_bool U (fst r) b1 b2 b3 v k1 k2 k3 k4 aa y1 y2 y3 x SU B1 B2 B3); [|exact E].
      intros c HI Hc. destruct (HU c HI Hc) as [A1 [A2 A3]]. repeat (split; [assumption || apply Hc|]).
      apply Hv; [exact HI|]. apply Hc. }
    intros u'. cbn beta. eapply honest_weak; [apply h_ret| |].
    - intros c _ H. exact H.
    - intros b' c _ [-> H]. unfold U, T in H. split; apply H. }
  change (honest (bnd (match snd r with
           | [] => insert_lc_gate F (fst r) 0 0 0 v (fofZ 8) (fofZ 4) (fofZ 2) (fofZ 1)
           | [b0] => insert_lc_gate F (fst r) b0 0 0 v (fofZ 2) (fofZ 1) 0 0
           | [b1; b0] => insert_lc_gate F (fst r) b1 b0 0 v (fofZ 4) (fofZ 2) (fofZ 1) 0
           | b2 :: b1 :: b0 :: _ => insert_lc_gate F (fst r) b2 b1 b0 v (fofZ 8) (fofZ 4) (fofZ 2) (fofZ 1)
           end) (fun _ => bnd (attach_boolean F) (fun _ => ret b))) U
      (fun b' c => Forall2 (has c) b' vs /\ S c)).
  destruct rem as [|y1 [|y2 [|y3 [|y4 rem]]]]; cbn [length] in Hrl; try lia;
    destruct (snd r) as [|s1 [|s2 [|s3 [|s4 ss]]]] eqn:Es;
    try (intros c _ [_ [H2 _]]; exfalso; rewrite ?Es in H2; apply f2len in H2; cbn in H2; lia);
    repeat match goal with H : Forall boolean (_ :: _) |- _ => inversion H; clear H; subst end.
  - apply (G s1 0%nat 0%nat y1 0 0); try assumption.
    + intros c HI [_ [H _]]. rewrite ?Es in H. inversion H; subst. pose proof (has_zero F c HI). auto.
    + rewrite Hx2. cbn [hornerF fold_left]. rewrite f2, fone. unfold hornerF. cbn [fold_left]. ring.
  - apply (G s1 s2 0%nat y1 y2 0); try assumption.
    + intros c HI [_ [H _]]. rewrite ?Es in H. inversion H as [|? ? ? ? ? H']; subst. inversion H'; subst.
      pose proof (has_zero F c HI). auto.
    + rewrite Hx2. unfold hornerF. cbn [fold_left]. rewrite f4, f2, fone. ring.
  - apply (G s1 s2 s3 y1 y2 y3); try assumption.
    + intros c HI [_ [H _]]. rewrite ?Es in H. inversion H as [|? ? ? ? ? H']; subst.
      inversion H' as [|? ? ? ? ? H'']; subst. inversion H''; subst. auto.
    + rewrite Hx2. unfold hornerF. cbn [fold_left]. rewrite f8, f4, f2, fone. ring.
Qed.

Lemma h_range_check S v n x : stable S -> (2 <= n)%nat ->
  (forall c, Inv c -> S c -> has c v x) -> (toZ x < 2 ^ Z.of_nat n)%Z ->
  honest (range_check F v n) S
    (fun b c => Forall2 (has c) b (map (bit F (toZ x)) (seq 0 n)) /\ S c).
Proof.
  intros HS Hn Hv Hx. intros c0 HI0 Hc0. rewrite range_check_body. cbv beta.
  destruct (Hv c0 HI0 Hc0) as [_ ->].
  apply (h_range_body S v n (map (bit F (toZ x)) (seq 0 n)) x HS Hn); try assumption.
  - now rewrite map_length, seq_length.
  - apply Forall_forall. intros y Hy. apply in_map_iff in Hy. destruct Hy as [i [<- _]]. apply bit_boolean.
  - rewrite fbitsF_bits, Z.shiftr_0_r, Z.mod_small by (pose proof (toZ_range F x); lia). apply fofZ_toZ.
Qed.

(** ** Whole systems *)
Lemma inv_new : Inv (cs_new F).
Proof.
  split; [reflexivity|]. split; [cbn; lia|]. split; [split; reflexivity|]. split; constructor.
Qed.
End Honest.
