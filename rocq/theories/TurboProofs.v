(** Soundness and completeness of the basic TurboPLONK gadgets. *)
From Coq Require Import List ZArith Bool Lia ZifyBool ZifyNat.
From Verif Require Import Base Field PField TurboModel TurboSpec.
Import ListNotations.
Ltac Zify.zify_post_hook ::= Z.div_mod_to_equations.
Local Open Scope F_scope.

Section Proofs.
Context (F : PField).
Add Field Ftb : (f_th F).
Implicit Types (c : tcs F) (w : nat -> F).

(** ** Rules *)
Lemma bnd_eq {A B} (m : CS F A) (f : A -> CS F B) c : bnd m f c = f (fst (m c)) (snd (m c)).
Proof. unfold bnd. destruct (m c). reflexivity. Qed.

Lemma sound_ret {A} (a : A) : sound (ret a) (fun w x => x = a).
Proof. intros c w H. split; [exact H|reflexivity]. Qed.

Lemma sound_bind {A B} (m : CS F A) (f : A -> CS F B) R (R' : A -> (nat -> F) -> B -> Prop) :
  sound m R -> (forall a, sound (f a) (R' a)) ->
  sound (bnd m f) (fun w b => exists a, R w a /\ R' a w b).
Proof.
  intros Hm Hf c w H. rewrite bnd_eq in *. apply Hf in H. destruct H as [H1 H2].
  apply Hm in H1. destruct H1 as [H1 H3]. eauto.
Qed.

Lemma sound_weak {A} (m : CS F A) (R R' : (nat -> F) -> A -> Prop) :
  sound m R -> (forall w a, R w a -> R' w a) -> sound m R'.
Proof. intros H HR c w Hs. apply H in Hs. destruct Hs. split; auto. Qed.

Lemma sound_push g : sound (push_gate F g) (fun w _ => gate_eq w g /\ gate_bool w g).
Proof. intros c w H. inversion H; subst. split; assumption. Qed.

Lemma sound_new v : sound (new_variable F v) (fun _ _ => True).
Proof. intros c w H. split; [exact H|exact I]. Qed.

Lemma sound_peek i : sound (peek F i) (fun _ _ => True).
Proof. intros c w H. split; [exact H|exact I]. Qed.

Lemma honest_ret {A} (a : A) (P : tcs F -> Prop) : honest (ret a) P (fun x c => x = a /\ P c).
Proof.
  intros c HI HP. cbn. split; [exact HI|]. split; [split; [lia|reflexivity]|]. split; [reflexivity|exact HP].
Qed.

Lemma extends_refl c : extends c c.
Proof. split; [lia|reflexivity]. Qed.
Lemma extends_trans c c' c'' : extends c c' -> extends c' c'' -> extends c c''.
Proof. intros [H1 H2] [H3 H4]. split; [lia|]. intros i Hi. rewrite H4 by lia. now apply H2. Qed.

Lemma honest_bind {A B} (m : CS F A) (f : A -> CS F B) P Q R :
  honest m P Q -> (forall a, honest (f a) (Q a) R) -> honest (bnd m f) P R.
Proof.
  intros Hm Hf c HI HP. rewrite bnd_eq.
  destruct (Hm c HI HP) as [H1 [H2 H3]]. destruct (Hf _ _ H1 H3) as [H4 [H5 H6]].
  split; [exact H4|]. split; [|exact H6]. eapply extends_trans; eassumption.
Qed.

Definition stable (P : tcs F -> Prop) : Prop := forall c c', extends c c' -> P c -> P c'.

Lemma honest_frame {A} (m : CS F A) P Q (S : tcs F -> Prop) : stable S ->
  honest m P Q -> honest m (fun c => P c /\ S c) (fun a c => Q a c /\ S c).
Proof.
  intros HS Hm c HI [HP Hs]. destruct (Hm c HI HP) as [H1 [H2 H3]].
  split; [exact H1|]. split; [exact H2|]. split; [exact H3|]. eapply HS; eassumption.
Qed.

Lemma honest_weak {A} (m : CS F A) (P P' : tcs F -> Prop) (Q Q' : A -> tcs F -> Prop) :
  honest m P Q -> (forall c, Inv c -> P' c -> P c) -> (forall a c, Inv c -> Q a c -> Q' a c) -> honest m P' Q'.
Proof. intros H HP HQ c HI Hc. destruct (H c HI (HP c HI Hc)) as [H1 [H2 H3]]. auto. Qed.

(** The value of an allocated variable. *)
Definition has c (i : nat) (x : F) : Prop := (i < nvars c)%nat /\ val c i = x.
Lemma has_stable i x : stable (fun c => has c i x).
Proof. intros c c' [H1 H2] [H3 H4]. split; [lia|]. rewrite H2; assumption. Qed.
Lemma has_all_stable (l : list (nat * F)) : stable (fun c => Forall (fun ix => has c (fst ix) (snd ix)) l).
Proof. intros c c' He H. eapply Forall_impl; [|exact H]. intros ix. now apply has_stable. Qed.

Lemma has_zero c : Inv c -> has c 0 0.
Proof. intros [H1 [H2 [[H3 H4] _]]]. split; [lia|exact H3]. Qed.
Lemma has_one c : Inv c -> has c 1 1.
Proof. intros [H1 [H2 [[H3 H4] _]]]. split; [lia|exact H4]. Qed.

Lemma has_fun c i x y : has c i x -> has c i y -> x = y.
Proof. intros [_ <-] [_ <-]. reflexivity. Qed.

(** ** Evaluating rows *)
Lemma gate_eq_ext (w w' : nat -> F) n g : wire_lt n g -> (forall i, (i < n)%nat -> w i = w' i) ->
  gate_eq w g -> gate_eq w' g.
Proof.
  intros [[H1 [H2 [H3 [H4 H5]]]] H6] Hw. unfold gate_eq.
  rewrite !Hw by assumption. destruct (g_pub g); [rewrite Hw by assumption|]; auto.
Qed.
Lemma gate_bool_ext (w w' : nat -> F) n g : wire_lt n g -> (forall i, (i < n)%nat -> w i = w' i) ->
  gate_bool w g -> gate_bool w' g.
Proof.
  intros [[H1 [H2 [H3 [H4 H5]]]] H6] Hw. unfold gate_bool. rewrite !Hw by assumption. auto.
Qed.
Lemma sat_ext c (w w' : nat -> F) : Forall (wire_lt (nvars c)) (grev c) ->
  (forall i, (i < nvars c)%nat -> w i = w' i) -> sat c w -> sat c w'.
Proof.
  intros HF Hw H. unfold sat in *. rewrite Forall_forall in *. intros g Hg.
  destruct (H g Hg) as [H1 H2]. specialize (HF g Hg).
  split; [eapply gate_eq_ext|eapply gate_bool_ext]; eassumption.
Qed.
Lemma wire_lt_mono n n' (g : gate F) : (n <= n')%nat -> wire_lt n g -> wire_lt n' g.
Proof. intros H [H1 H2]. split; [lia|]. destruct (g_pub g); [lia|exact I]. Qed.

Lemma honest_new v : honest (new_variable F v) (fun _ => True) (fun o c => has c o v).
Proof.
  intros c [H1 [H2 [H3 [H4 H5]]]] _. unfold new_variable. cbn [fst snd].
  set (c' := mkCs (grev c) (S (nvars c)) (wit c ++ [v])).
  assert (Hv : forall i, (i < nvars c)%nat -> val c' i = val c i).
  { intros i Hi. unfold val. cbn. apply app_nth1. lia. }
  split.
  - split; [cbn; rewrite app_length; cbn; lia|]. split; [cbn; lia|]. split.
    + destruct H3 as [H3 H3']. split; rewrite Hv by lia; assumption.
    + split.
      * eapply Forall_impl; [|exact H4]. intros g. apply wire_lt_mono. cbn. lia.
      * eapply (sat_ext c); [exact H4| |exact H5]. intros i Hi. symmetry. now apply Hv.
  - split; [split; [cbn; lia|exact Hv]|]. split; [cbn; lia|].
    unfold val. cbn. rewrite app_nth2, H1, Nat.sub_diag by lia. reflexivity.
Qed.

(** Predicates that do not look at the gates survive a push. *)
Definition gatefree (P : tcs F -> Prop) : Prop :=
  forall c g, P (mkCs g (nvars c) (wit c)) -> P c.
Lemma honest_push' g P : gatefree P ->
  (forall c, Inv c -> P c -> wire_lt (nvars c) g) ->
  (forall c, Inv c -> P c -> gate_eq (val c) g /\ gate_bool (val c) g) ->
  honest (push_gate F g) P (fun _ c => P c).
Proof.
  intros Hf Hw Hg c HI HP. pose proof HI as [H1 [H2 [H3 [H4 H5]]]]. cbn [push_gate fst snd].
  split; [split; [exact H1|split; [exact H2|split; [exact H3|split]]]|].
  - constructor; [exact (Hw c HI HP)|exact H4].
  - constructor; [exact (Hg c HI HP)|exact H5].
  - split; [split; [cbn; lia|reflexivity]|]. apply (Hf _ (grev c)). destruct c. exact HP.
Qed.
Lemma stable_gatefree P : stable P -> gatefree P.
Proof. intros H c g. apply H. split; [cbn; lia|reflexivity]. Qed.

(** ** Row equations *)
Lemma lc_row_eq w a b (c : nat) d o k1 k2 k3 k4 :
  gate_eq w (lc_row F a b c d o k1 k2 k3 k4) <-> w o = k1 * w a + k2 * w b + k3 * w c + k4 * w d.
Proof.
  unfold gate_eq, lc_row.
  cbn [q1 q2 q3 q4 qm1 qm2 qc qecc qh1 qh2 qh3 qh4 qo w1 w2 w3 w4 wo g_pub].
  split; intros H.
  - replace (w o) with (1 * w o) by ring. rewrite <- H. ring.
  - rewrite H. ring.
Qed.
Lemma mul_row_eq w l r o : gate_eq w (mul_row F l r o) <-> w o = w l * w r.
Proof.
  unfold gate_eq, mul_row.
  cbn [q1 q2 q3 q4 qm1 qm2 qc qecc qh1 qh2 qh3 qh4 qo w1 w2 w3 w4 wo g_pub].
  split; intros H.
  - replace (w o) with (1 * w o) by ring. rewrite <- H. ring.
  - rewrite H. ring.
Qed.
Lemma select_row_eq w v0 v1 b o :
  gate_eq w (select_row F v0 v1 b o) <-> w o = (1 - w b) * w v0 + w b * w v1.
Proof.
  unfold gate_eq, select_row.
  cbn [q1 q2 q3 q4 qm1 qm2 qc qecc qh1 qh2 qh3 qh4 qo w1 w2 w3 w4 wo g_pub].
  split; intros H.
  - replace (w o) with (1 * w o) by ring. rewrite <- H. ring.
  - rewrite H. ring.
Qed.
Lemma const_row_eq w v k : gate_eq w (const_row F v k None) <-> w v = k.
Proof.
  unfold gate_eq, const_row.
  cbn [q1 q2 q3 q4 qm1 qm2 qc qecc qh1 qh2 qh3 qh4 qo w1 w2 w3 w4 wo g_pub].
  split; intros H.
  - replace (w v) with (1 * w v) by ring. rewrite <- H. ring.
  - rewrite <- H. ring.
Qed.
Lemma pub_row_eq w v : gate_eq w (const_row F v 0 (Some v)).
Proof.
  unfold gate_eq, const_row.
  cbn [q1 q2 q3 q4 qm1 qm2 qc qecc qh1 qh2 qh3 qh4 qo w1 w2 w3 w4 wo g_pub]. ring.
Qed.
Lemma pad_row_eq w : gate_eq w (pad_row F) /\ gate_bool w (pad_row F).
Proof.
  split; [|intros H; discriminate]. unfold gate_eq, pad_row.
  cbn [q1 q2 q3 q4 qm1 qm2 qc qecc qh1 qh2 qh3 qh4 qo w1 w2 w3 w4 wo g_pub]. ring.
Qed.

(** ** Gadget soundness *)
Lemma lc_gate_sound a b (c : nat) d o k1 k2 k3 k4 :
  sound (insert_lc_gate F a b c d o k1 k2 k3 k4)
        (fun w _ => w o = k1 * w a + k2 * w b + k3 * w c + k4 * w d).
Proof. eapply sound_weak; [apply sound_push|]. intros w ? [H _]. now apply lc_row_eq in H. Qed.
Lemma mul_gate_sound l r o : sound (insert_mul_gate F l r o) (fun w _ => w o = w l * w r).
Proof. eapply sound_weak; [apply sound_push|]. intros w ? [H _]. now apply mul_row_eq in H. Qed.
Lemma sub_gate_sound l r o : sound (insert_sub_gate F l r o) (fun w _ => w o = w l - w r).
Proof. eapply sound_weak; [apply lc_gate_sound|]. intros w ? H. rewrite H. ring. Qed.
Lemma const_gate_sound v k : sound (insert_constant_gate F v k) (fun w _ => w v = k).
Proof. eapply sound_weak; [apply sound_push|]. intros w ? [H _]. now apply const_row_eq in H. Qed.
Lemma pub_sound v : sound (prepare_pi_variable F v) (fun _ _ => True).
Proof. eapply sound_weak; [apply sound_push|]. trivial. Qed.

(** A gadget that looks at the state only to compute the value of a new variable. *)
Lemma new_state_sound {A} (v : tcs F -> F) (f : nat -> CS F A) (R : (nat -> F) -> A -> Prop) :
  (forall o, sound (f o) R) -> sound (fun s => bnd (new_variable F (v s)) f s) R.
Proof. intros H c w Hs. unfold bnd, new_variable in *. apply H in Hs. exact Hs. Qed.
Lemma new_list_sound {A} (v : tcs F -> list F) (f : list nat -> CS F A) (R : (nat -> F) -> A -> Prop) n :
  (forall s, length (v s) = n) ->
  (forall l, length l = n -> sound (f l) R) -> sound (fun s => bnd (new_variables F (v s)) f s) R.
Proof.
  intros Hv H c w Hs. rewrite bnd_eq in *.
  assert (L : forall vs s, length (fst (new_variables F vs s)) = length vs /\ grev (snd (new_variables F vs s)) = grev s).
  { clear. induction vs as [|x vs IH]; intros s; [split; reflexivity|].
    cbn [new_variables]. rewrite bnd_eq. unfold new_variable. cbn [fst snd]. rewrite bnd_eq. cbn [ret fst snd length].
    destruct (IH (mkCs (grev s) (S (nvars s)) (wit s ++ [x]))) as [H1 H2]. split; [now rewrite H1|exact H2]. }
  destruct (L (v c) c) as [L1 L2].
  apply H in Hs; [|now rewrite L1]. destruct Hs as [Hs1 Hs2]. split; [|exact Hs2].
  unfold sat in *. rewrite L2 in Hs1. exact Hs1.
Qed.

Lemma seq_ret_sound {A B} (m : CS F A) (R : (nat -> F) -> A -> Prop) (R' : (nat -> F) -> B -> Prop) (b : B) :
  sound m R -> (forall w a, R w a -> R' w b) -> sound (bnd m (fun _ => ret b)) R'.
Proof.
  intros Hm HR c w H. rewrite bnd_eq in *. cbn [ret fst snd] in *. apply Hm in H. destruct H. split; eauto.
Qed.

Lemma linear_combine_sound a b (c : nat) d k1 k2 k3 k4 :
  sound (linear_combine F a b c d k1 k2 k3 k4)
        (fun w o => w o = k1 * w a + k2 * w b + k3 * w c + k4 * w d).
Proof.
  unfold linear_combine. apply (new_state_sound (fun s => _)). intros o.
  eapply seq_ret_sound; [apply lc_gate_sound|]. auto.
Qed.
Lemma add_sound l r : sound (add F l r) (fun w o => w o = w l + w r).
Proof.
  unfold add. apply (new_state_sound (fun s => _)). intros o.
  eapply seq_ret_sound; [apply lc_gate_sound|]. intros w ? H. rewrite H. ring.
Qed.
Lemma sub_sound l r : sound (sub F l r) (fun w o => w o = w l - w r).
Proof.
  unfold sub. apply (new_state_sound (fun s => _)). intros o.
  eapply seq_ret_sound; [apply sub_gate_sound|]. auto.
Qed.
Lemma mul_sound l r : sound (mul F l r) (fun w o => w o = w l * w r).
Proof.
  unfold mul. apply (new_state_sound (fun s => _)). intros o.
  eapply seq_ret_sound; [apply mul_gate_sound|]. auto.
Qed.
Lemma equal_sound l r : sound (equal F l r) (fun w _ => w 0%nat = w l - w r).
Proof. apply sub_gate_sound. Qed.

Lemma square_boolean (x : F) : x = x * x -> boolean x.
Proof.
  intros H. assert (E : x * (x - 1) = 0) by (replace (x * (x - 1)) with (x * x - x) by ring; rewrite <- H; ring).
  apply fmul_0 in E. destruct E as [E|E]; [left; exact E|right]. apply (proj1 (fsub_0 F x 1)). exact E.
Qed.
Lemma boolean_gate_sound v : sound (insert_boolean_gate F v) (fun w _ => boolean (w v)).
Proof. eapply sound_weak; [apply mul_gate_sound|]. intros w ? H. now apply square_boolean. Qed.

Lemma select_sound v0 v1 b :
  sound (select F v0 v1 b) (fun w o => w o = (1 - w b) * w v0 + w b * w v1).
Proof.
  unfold select. apply (new_state_sound (fun s => _)). intros o.
  eapply seq_ret_sound; [apply sound_push|]. intros w ? [H _]. now apply select_row_eq in H.
Qed.

Lemma is_equal_or_not_sound l r :
  sound (is_equal_or_not_equal F l r)
    (fun w p => exists inv, w (snd p) = (w l - w r) * inv /\
       w (fst p) = w 1%nat - w (snd p) /\ w 0%nat = (w l - w r) * w (fst p)).
Proof.
  unfold is_equal_or_not_equal.
  eapply sound_weak.
  { eapply sound_bind; [apply sub_sound|]. intros diff.
    eapply sound_bind; [apply sound_peek|]. intros d.
    eapply sound_bind; [apply sound_new|]. intros inv.
    eapply sound_bind; [apply mul_sound|]. intros m.
    eapply sound_bind; [apply sub_sound|]. intros e.
    eapply sound_bind; [apply mul_gate_sound|]. intros u. apply sound_ret. }
  intros w p [diff [H1 [d [_ [inv [_ [m [H2 [e [H3 [u [H4 ->]]]]]]]]]]]]. cbn [fst snd].
  exists (w inv). rewrite <- H1. auto.
Qed.

(** With the conventions on variables 0 and 1 the outputs are decided. *)
Lemma is_equal_or_not_decided l r :
  sound (is_equal_or_not_equal F l r)
    (fun w p => conv w -> (w (fst p) = if f_dec (w l) (w r) then 1 else 0) /\
                          (w (snd p) = if f_dec (w l) (w r) then 0 else 1)).
Proof.
  eapply sound_weak; [apply is_equal_or_not_sound|].
  intros w p [inv [H1 [H2 H3]]] [C0 C1]. rewrite C0, C1 in *.
  destruct (f_dec (w l) (w r)) as [e|n].
  - rewrite e in H1. assert (E : w (snd p) = 0) by (rewrite H1; ring).
    split; [rewrite H2, E; ring|exact E].
  - assert (E : w (fst p) = 0).
    { destruct (fmul_0 F _ _ (eq_sym H3)) as [E|E]; [|exact E]. apply (proj1 (fsub_0 F _ _)) in E. contradiction. }
    split; [exact E|]. rewrite E in H2. symmetry. apply (proj1 (fsub_0 F _ _)). now rewrite <- H2.
Qed.

(** ** Range check *)
Lemma attach_sound (m : CS F nat) g R :
  (forall c, exists v, m c = (nvars c, mkCs (g (nvars c) :: grev c) (S (nvars c)) (wit c ++ [v]))) ->
  sound m R ->
  (forall n, g_bool (g n) = false) ->
  sound (bnd m (fun o => bnd (attach_boolean F) (fun _ => ret o)))
        (fun w o => R w o /\ boolean (w (w2 (g o))) /\ boolean (w (w3 (g o))) /\ boolean (w (w4 (g o)))).
Proof.
  intros Hm Hs Hb c w H. destruct (Hm c) as [v E].
  unfold bnd, attach_boolean, ret in *. pose proof (Hs c w) as Hs'.
  rewrite E in *. cbn [fst snd grev nvars wit] in *.
  unfold sat in H. cbn [grev] in H. inversion H as [|g' l [G1 G2] Hrest]; subst.
  assert (S1 : sat (mkCs (g (nvars c) :: grev c) (S (nvars c)) (wit c ++ [v])) w).
  { constructor; [|exact Hrest]. split; [exact G1|]. intros Hf. rewrite Hb in Hf. discriminate. }
  destruct (Hs' S1) as [S2 S3]. split; [exact S2|]. split; [exact S3|]. exact (G2 eq_refl).
Qed.

Lemma lc_bool_sound a b (c : nat) d k1 k2 k3 k4 :
  sound (bnd (linear_combine F a b c d k1 k2 k3 k4) (fun o => bnd (attach_boolean F) (fun _ => ret o)))
    (fun w o => w o = k1 * w a + k2 * w b + k3 * w c + k4 * w d /\
                boolean (w b) /\ boolean (w c) /\ boolean (w d)).
Proof.
  apply (attach_sound _ (fun o => lc_row F a b c d o k1 k2 k3 k4)).
  - intros s. eexists. reflexivity.
  - apply linear_combine_sound.
  - reflexivity.
Qed.

Lemma lc_gate_bool_sound a b (c : nat) d o k1 k2 k3 k4 :
  sound (bnd (insert_lc_gate F a b c d o k1 k2 k3 k4) (fun _ => attach_boolean F))
    (fun w _ => w o = k1 * w a + k2 * w b + k3 * w c + k4 * w d /\
                boolean (w b) /\ boolean (w c) /\ boolean (w d)).
Proof.
  intros s w H. unfold bnd, insert_lc_gate, push_gate, attach_boolean in *. cbn [fst snd grev nvars wit] in *.
  unfold sat in H. cbn [grev] in H. inversion H as [|g' l [G1 G2] Hrest]; subst.
  split; [exact Hrest|]. split; [|exact (G2 eq_refl)].
  apply (lc_row_eq w a b c d o k1 k2 k3 k4). exact G1.
Qed.

(** Horner evaluation from the top bit. *)
Definition horner (w : nat -> F) (a : F) (l : list nat) : F :=
  fold_left (fun x v => x + x + w v) l a.

Lemma f2 : fofZ 2 = (1 + 1 : F). Proof. reflexivity. Qed.
Lemma f4 : fofZ 4 = ((1 + 1) * (1 + 1) : F). Proof. reflexivity. Qed.
Lemma f8 : fofZ 8 = ((1 + 1) * ((1 + 1) * (1 + 1)) : F). Proof. reflexivity. Qed.
Lemma fone : fofZ 1 = (1 : F). Proof. reflexivity. Qed.

Lemma range_loop_sound m : forall acc top, (3 * m <= length top)%nat ->
  sound (range_loop F m acc top)
    (fun w r => exists done, top = done ++ snd r /\ length done = (3 * m)%nat /\
                Forall (fun v => boolean (w v)) done /\ w (fst r) = horner w (w acc) done).
Proof.
  induction m as [|m IH]; intros acc top Hl.
  - destruct top; (eapply sound_weak; [apply sound_ret|]; intros w r ->; exists []; repeat split; constructor).
  - destruct top as [|a [|b [|d top]]]; cbn [length] in Hl; try lia.
    cbn [range_loop].
    assert (S : sound (bnd (bnd (linear_combine F acc a b d (fofZ 8) (fofZ 4) (fofZ 2) (fofZ 1))
           (fun o => bnd (attach_boolean F) (fun _ => ret o))) (fun o => range_loop F m o top))
      (fun w r => exists done, a :: b :: d :: top = done ++ snd r /\ length done = (3 * S m)%nat /\
                Forall (fun v => boolean (w v)) done /\ w (fst r) = horner w (w acc) done)).
    2:{ intros c w H. exact (S c w H). }
    eapply sound_weak.
    { eapply sound_bind; [apply lc_bool_sound|]. intros o. apply IH. lia. }
    intros w r [o [[H1 [Ha [Hb Hd]]] [done [H2 [H3 [H4 H5]]]]]].
    exists (a :: b :: d :: done). split; [cbn; congruence|]. split; [cbn; lia|].
    split; [constructor; [exact Ha|constructor; [exact Hb|constructor; [exact Hd|exact H4]]]|]. rewrite H5. cbn [horner fold_left].
    unfold horner. f_equal. rewrite H1, f8, f4, f2, fone. ring.
Qed.

Lemma new_variables_sound vs : sound (new_variables F vs) (fun _ l => length l = length vs).
Proof.
  induction vs as [|v vs IH]; cbn [new_variables].
  - eapply sound_weak; [apply sound_ret|]. intros w l ->. reflexivity.
  - eapply sound_weak.
    { eapply sound_bind; [apply sound_new|]. intros i. eapply sound_bind; [apply IH|]. intros l. apply sound_ret. }
    intros w l [i [_ [l' [H ->]]]]. cbn. now rewrite H.
Qed.

(** The field value of a boolean list of variables, low bit first. *)
Definition fbits (w : nat -> F) (l : list nat) : F := fold_right (fun v x => w v + (x + x)) 0 l.

Lemma horner_app w a l l' : horner w a (l ++ l') = horner w (horner w a l) l'.
Proof. unfold horner. apply fold_left_app. Qed.

Lemma horner_fbits w l : horner w 0 (rev l) = fbits w l.
Proof.
  induction l as [|v l IH]; [reflexivity|]. cbn [rev fbits fold_right]. fold (fbits w l).
  rewrite horner_app, IH. cbn. ring.
Qed.

Lemma range_check_field v n : (2 <= n)%nat ->
  sound (range_check F v n)
    (fun w b => length b = n /\ Forall (fun i => boolean (w i)) b /\ w v = fbits w b).
Proof.
  intros Hn. unfold range_check. apply (new_list_sound (fun s => map _ (seq 0 n)) _ _ n).
  { intros s. now rewrite map_length, seq_length. }
  intros b Hl. destruct (rev b) as [|top rest] eqn:Er.
  { apply (f_equal (@length nat)) in Er. rewrite rev_length in Er. cbn in Er. lia. }
  assert (Hlr : length rest = (n - 1)%nat).
  { apply (f_equal (@length nat)) in Er. rewrite rev_length in Er. cbn in Er. lia. }
  eapply sound_weak.
  { eapply sound_bind; [apply boolean_gate_sound|]. intros u.
    eapply sound_bind; [apply range_loop_sound; lia|].
    intros r.
    instantiate (1 := fun r w b' => length (snd r) = (n - 1 - 3 * ((n - 2) / 3))%nat ->
         b' = b /\ Forall (fun i => boolean (w i)) (snd r) /\ w v = horner w (w (fst r)) (snd r)).
    cbn beta.
    assert (G : forall a b' d o' k1 k2 k3 k4,
      sound (bnd (insert_lc_gate F a b' d o' v k1 k2 k3 k4) (fun _ => bnd (attach_boolean F) (fun _ => ret b)))
        (fun w x => x = b /\ w v = k1 * w a + k2 * w b' + k3 * w d + k4 * w o' /\
                    boolean (w b') /\ boolean (w d) /\ boolean (w o'))).
    { intros. intros c w H.
      change (sat (snd (bnd (bnd (insert_lc_gate F a b' d o' v k1 k2 k3 k4) (fun _ => attach_boolean F)) (fun _ => ret b) c)) w) in H.
      rewrite bnd_eq in H. cbn [ret snd] in H. apply lc_gate_bool_sound in H. destruct H. split; auto. }
    destruct r as [acc rem]. cbn [fst snd].
    destruct rem as [|x0 [|x1 [|x2 [|x3 xs]]]]; (eapply sound_weak; [apply G|]); cbn beta;
      intros w b' [-> [H1 [B1 [B2 B3]]]] Hlen; cbn [length] in Hlen; try lia;
      (split; [reflexivity|]; split; [repeat (apply Forall_cons; [assumption|]); apply Forall_nil|]);
      cbn [horner fold_left]; rewrite H1, ?f8, ?f4, ?f2, ?fone; ring. }
  intros w b' [u [Ht [r [[done [H1 [H2 [H3 H4]]]] H5]]]].
  assert (Hlen : length (snd r) = (n - 1 - 3 * ((n - 2) / 3))%nat).
  { rewrite H1, app_length in Hlr. lia. }
  destruct (H5 Hlen) as [-> [H6 H7]].
  split; [exact Hl|].
  assert (Eb : b = rev (top :: rest)) by (rewrite <- Er, rev_involutive; reflexivity).
  split.
  - rewrite Eb. apply Forall_rev. constructor; [exact Ht|]. rewrite H1. apply Forall_app. split; assumption.
  - rewrite H7, H4. rewrite <- horner_app, <- H1.
    rewrite <- horner_fbits, Er. cbn [horner fold_left]. unfold horner. f_equal. ring.
Qed.

Lemma boolean_bit (x : F) : boolean x -> exists b : bool, x = fofZ (Z.b2z b).
Proof. intros [->| ->]; [exists false|exists true]; reflexivity. Qed.

Lemma fbits_Z w l : Forall (fun i => boolean (w i)) l ->
  exists bs : list bool, map w l = map (fun b => fofZ (Z.b2z b)) bs /\
    fbits w l = fofZ (bitsZ (map Z.b2z bs)).
Proof.
  induction 1 as [|v l H _ [bs [IH1 IH2]]].
  - exists []. split; reflexivity.
  - destruct (boolean_bit _ H) as [b Hb]. exists (b :: bs). cbn [map]. split; [congruence|].
    cbn [fbits fold_right bitsZ]. fold (fbits w l). fold (bitsZ (map Z.b2z bs)).
    rewrite IH2, Hb, fofZ_add, fofZ_mul, f2. ring.
Qed.

Lemma bitsZ_range bs : (0 <= bitsZ (map Z.b2z bs) < 2 ^ Z.of_nat (length bs))%Z.
Proof.
  induction bs as [|b bs IH]; [cbn; lia|]. cbn [map bitsZ fold_right length]. fold (bitsZ (map Z.b2z bs)).
  rewrite Nat2Z.inj_succ, Z.pow_succ_r by lia. destruct b; cbn [Z.b2z]; lia.
Qed.

Lemma bitsZ_testbit bs : forall i, Z.testbit (bitsZ (map Z.b2z bs)) (Z.of_nat i) = nth i bs false.
Proof.
  induction bs as [|b bs IH]; intros i.
  - cbn. rewrite Z.bits_0. now destruct i.
  - cbn [map bitsZ fold_right]. fold (bitsZ (map Z.b2z bs)). destruct i as [|i].
    + cbn [nth]. rewrite Z.add_comm. change (Z.of_nat 0) with 0%Z. apply Z.testbit_0_r.
    + cbn [nth]. rewrite Nat2Z.inj_succ, Z.add_comm, Z.testbit_succ_r by lia. apply IH.
Qed.

(** The returned variables carry the binary digits of the value, which is below
    [2^n]. *)
Lemma range_check_sound v n : (2 <= n)%nat -> (2 ^ Z.of_nat n <= pchar F)%Z ->
  sound (range_check F v n)
    (fun w b => length b = n /\ (toZ (w v) < 2 ^ Z.of_nat n)%Z /\
       forall i, (i < n)%nat -> w (nth i b 0%nat) = bit F (toZ (w v)) i).
Proof.
  intros Hn Hp. eapply sound_weak; [apply range_check_field, Hn|].
  intros w b [Hl [Hb Hv]]. destruct (fbits_Z w b Hb) as [bs [H1 H2]].
  assert (Hlb : length bs = n) by (apply (f_equal (@length F)) in H1; rewrite !map_length in H1; lia).
  pose proof (bitsZ_range bs) as Hr. rewrite Hlb in Hr.
  assert (Hz : toZ (w v) = bitsZ (map Z.b2z bs)) by (rewrite Hv, H2; apply toZ_small; lia).
  split; [exact Hl|]. rewrite Hz. split; [lia|]. intros i Hi.
  unfold bit. rewrite bitsZ_testbit.
  assert (E : nth i (map w b) (w 0%nat) = nth i (map (fun b => fofZ (Z.b2z b)) bs) (w 0%nat)) by now rewrite H1.
  rewrite map_nth in E. rewrite E.
  rewrite (nth_indep _ (w 0%nat) (fofZ (Z.b2z false))) by (rewrite map_length; lia).
  rewrite (map_nth (fun b : bool => fofZ (F := F) (Z.b2z b))). destruct (nth i bs false); reflexivity.
Qed.
End Proofs.
