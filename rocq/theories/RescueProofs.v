From Coq Require Import List ZArith NArith Bool Lia Field.
From Verif Require Import Base Field PField Power RescueModel RescueSpec
  TurboModel TurboSpec TurboProofs TurboHonest TurboKit.
Import ListNotations.
Local Open Scope F_scope.

Section Proofs.
Context (F : PField).
Add Field Frp : (f_th F).
Notation vec4 := (vec4 F). Notation mat4 := (mat4 F).

Lemma vec4_inv (v : list F) : vec4 v -> exists a b c d, v = [a; b; c; d].
Proof.
  unfold RescueSpec.vec4. destruct v as [|a [|b [|c [|d [|e v]]]]]; try discriminate. intros _. now exists a, b, c, d.
Qed.
Lemma mat4_inv M : mat4 M -> exists r0 r1 r2 r3, M = [r0; r1; r2; r3] /\ vec4 r0 /\ vec4 r1 /\ vec4 r2 /\ vec4 r3.
Proof.
  intros [H1 H2]. destruct M as [|r0 [|r1 [|r2 [|r3 [|e M]]]]]; try discriminate.
  rewrite Forall_forall in H2. exists r0, r1, r2, r3. repeat split; auto; apply H2; cbn; auto 6.
Qed.
Ltac vec H := apply vec4_inv in H; destruct H as [? [? [? [? ->]]]].
Ltac mat H := apply mat4_inv in H; destruct H as [? [? [? [? [-> [?H [?H [?H ?H]]]]]]]];
  repeat match goal with X : RescueSpec.vec4 F ?v |- _ => is_var v; vec X end.

Lemma linear_op_affine M v k : mat4 M -> vec4 v -> vec4 k -> linear_op F M v k = affine F M k v.
Proof.
  intros HM Hv Hk. vec Hv. vec Hk. mat HM.
  unfold linear_op, affine, row_op, dot. cbn. unfold row_op. cbn. unfold fsum. cbn [fold_right].
  repeat (apply f_equal2; [ring|]). reflexivity.
Qed.
Lemma affine_vec4 M k v : mat4 M -> vec4 k -> vec4 (affine F M k v).
Proof. intros [H1 _] H2. unfold RescueSpec.vec4, affine in *. rewrite map_length, combine_length, H1, H2. reflexivity. Qed.
Lemma map_vec4 {f : F -> F} v : vec4 v -> vec4 (map f v).
Proof. unfold RescueSpec.vec4. now rewrite map_length. Qed.
Lemma add_vec4 v k : vec4 v -> vec4 k -> vec4 (map (fun p : F * F => fst p + snd p) (combine v k)).
Proof. unfold RescueSpec.vec4. intros H1 H2. now rewrite map_length, combine_length, H1, H2. Qed.

(** Affine layers are invertible. *)
Lemma dot_assoc r M v : vec4 r -> mat4 M -> vec4 v ->
  dot F r (map (fun m => dot F m v) M) = dot F (map (fun j => dot F r (column F M j)) (seq 0 4)) v.
Proof.
  intros Hr HM Hv. vec Hr. vec Hv. mat HM. unfold column, dot, fsum. cbn. ring.
Qed.
Lemma mat_vec A B v : mat4 A -> mat4 B -> vec4 v ->
  map (fun r => dot F r (map (fun m => dot F m v) B)) A = map (fun r => dot F r v) (mat_mul F A B).
Proof.
  intros HA HB Hv. unfold mat_mul. rewrite map_map. apply map_ext_in. intros r Hr. apply dot_assoc; [|assumption|assumption].
  destruct HA as [_ HA]. rewrite Forall_forall in HA. now apply HA.
Qed.
Lemma unit_vec v : vec4 v -> map (fun r => dot F r v) (unit4 F) = v.
Proof. intros Hv. vec Hv. unfold unit4, dot, fsum. cbn. repeat (apply f_equal2; [ring|]). reflexivity. Qed.

Lemma affine_split M k v : mat4 M -> vec4 k ->
  affine F M k v = map (fun p => fst p + snd p) (combine (map (fun m => dot F m v) M) k).
Proof.
  intros HM Hk. vec Hk. apply mat4_inv in HM. destruct HM as [r0 [r1 [r2 [r3 [-> _]]]]]. reflexivity.
Qed.
Lemma add_sub_vec v k : vec4 v -> vec4 k ->
  map (fun p : F * F => fst p - snd p) (combine (map (fun p => fst p + snd p) (combine v k)) k) = v.
Proof. intros Hv Hk. vec Hv. vec Hk. cbn. repeat (apply f_equal2; [ring|]). reflexivity. Qed.
Lemma sub_add_vec v k : vec4 v -> vec4 k ->
  map (fun p : F * F => fst p + snd p) (combine (map (fun p => fst p - snd p) (combine v k)) k) = v.
Proof. intros Hv Hk. vec Hv. vec Hk. cbn. repeat (apply f_equal2; [ring|]). reflexivity. Qed.
Lemma sub_vec4 v k : vec4 v -> vec4 k -> vec4 (map (fun p : F * F => fst p - snd p) (combine v k)).
Proof. unfold RescueSpec.vec4. intros H1 H2. now rewrite map_length, combine_length, H1, H2. Qed.
Lemma mulvec4 M v : mat4 M -> vec4 (map (fun m => dot F m v) M).
Proof. intros [H _]. unfold RescueSpec.vec4. now rewrite map_length. Qed.

Lemma affine_bij M Mi k : mat4 M -> mat4 Mi -> mat_inverse F M Mi -> vec4 k -> bijective4 F (affine F M k).
Proof.
  intros HM HMi [I1 I2] Hk. split; [intros s _; now apply affine_vec4|].
  intros t Ht. set (u := map (fun p : F * F => fst p - snd p) (combine t k)).
  assert (Hu : vec4 u) by now apply sub_vec4.
  exists (map (fun m => dot F m u) Mi). split.
  - split; [now apply mulvec4|]. rewrite affine_split by assumption. rewrite mat_vec, I1, unit_vec by assumption.
    now apply sub_add_vec.
  - intros s [Hs <-]. unfold u. rewrite affine_split by assumption.
    rewrite add_sub_vec by (try apply mulvec4; assumption). now rewrite mat_vec, I2, unit_vec by assumption.
Qed.
Lemma map_bij (f g : F -> F) : (forall x, f (g x) = x) -> (forall x, g (f x) = x) -> bijective4 F (map f).
Proof.
  intros H1 H2. split; [intros s; apply map_vec4|]. intros t Ht. exists (map g t). split.
  - split; [now apply map_vec4|]. rewrite map_map. rewrite <- (map_id t) at 2. now apply map_ext.
  - intros s [Hs <-]. rewrite map_map. rewrite <- (map_id s) at 2. now apply map_ext.
Qed.
Lemma add_bij k : vec4 k -> bijective4 F (fun s => map (fun p => fst p + snd p) (combine s k)).
Proof.
  intros Hk. split; [intros s Hs; now apply add_vec4|]. intros t Ht.
  exists (map (fun p : F * F => fst p - snd p) (combine t k)). split.
  - split; [now apply sub_vec4|now apply sub_add_vec].
  - intros s [Hs <-]. now apply add_sub_vec.
Qed.
Lemma comp_bij f g : bijective4 F f -> bijective4 F g -> bijective4 F (fun s => g (f s)).
Proof.
  intros [F1 F2] [G1 G2]. split; [auto|]. intros t Ht. destruct (G2 t Ht) as [u [[Hu <-] U]].
  destruct (F2 u Hu) as [s [[Hs <-] V]]. exists s. split; [auto|]. intros s' [Hs' E].
  apply V. split; [exact Hs'|]. symmetry. apply U. split; auto.
Qed.
Lemma id_bij : bijective4 F (fun s => s).
Proof. split; [auto|]. intros t Ht. exists t. split; [auto|]. now intros s [_ ->]. Qed.

Lemma pow_bij a b : exp_inv F a b -> bijective4 F (map (fun x => fpowN x a)).
Proof.
  intros H. apply (map_bij _ (fun x => fpowN x b)); intros x; [now apply pow_inv_r|now apply pow_inv_l].
Qed.
Lemma half_rounds_bij M Mi : mat4 M -> mat4 Mi -> mat_inverse F M Mi -> forall keys a b,
  exp_inv F a b -> Forall vec4 keys -> bijective4 F (half_rounds F M a b keys).
Proof.
  intros HM HMi HI. induction keys as [|k keys IH]; intros a b He Hk; [apply id_bij|].
  inversion Hk as [|? ? Hk1 Hk2]; subst.
  apply (comp_bij (half_round F M a k) (half_rounds F M b a keys)); [|now apply IH; [apply exp_inv_sym|]].
  apply (comp_bij (map (fun x => fpowN x a)) (affine F M k)); [now apply (pow_bij a b)|]. now apply (affine_bij M Mi).
Qed.
Lemma keyed_bij M Mi keys a b : mat4 M -> mat4 Mi -> mat_inverse F M Mi -> exp_inv F a b ->
  Forall vec4 keys -> bijective4 F (keyed F M a b keys).
Proof.
  intros HM HMi HI He Hk. destruct Hk as [|k keys Hk1 Hk2]; [apply id_bij|].
  apply (comp_bij (fun s => map (fun p => fst p + snd p) (combine s k)) (half_rounds F M a b keys)).
  - now apply add_bij.
  - now apply (half_rounds_bij M Mi).
Qed.

Section Instance.
Context (P : rescue_instance F) (HP : rescue_ok F P).

Lemma overwrite_len old new : length (overwrite F old new) = length old.
Proof. revert new. induction old as [|o old IH]; intros [|n new]; cbn; auto. Qed.
Lemma linear_op_vec4 M v k : vec4 v -> vec4 (linear_op F M v k).
Proof. unfold RescueSpec.vec4, linear_op. now rewrite overwrite_len. Qed.

Definition exps (i : nat) : N * N := if Nat.even i then (ainv F P, 5%N) else (5%N, ainv F P).
Lemma exps_S i : exps (S i) = (snd (exps i), fst (exps i)).
Proof. unfold exps. rewrite Nat.even_succ, <- Nat.negb_even. now destruct (Nat.even i). Qed.
Lemma round_exp_fst i : round_exp F P i = fst (exps i).
Proof. destruct HP as [_ [_ [_ [_ [_ [HA _]]]]]]. unfold round_exp, exps. rewrite HA. now destruct (Nat.even i). Qed.

Lemma key_loop_vec4 n : forall i ki prev, vec4 ki -> vec4 prev -> Forall vec4 (key_loop F P n i ki prev).
Proof.
  induction n as [|n IH]; intros i ki prev H1 H2; [constructor|]. cbn [key_loop]. constructor.
  - apply linear_op_vec4. now apply map_vec4.
  - apply IH; [now apply linear_op_vec4|apply linear_op_vec4; now apply map_vec4].
Qed.
Lemma key_scheduling_vec4 key : vec4 key -> Forall vec4 (key_scheduling F P key).
Proof.
  destruct HP as [_ [_ [_ [HIC _]]]]. intros Hk.
  constructor; [now apply add_vec4|]. apply key_loop_vec4; [assumption|now apply add_vec4].
Qed.
Lemma key_loop_len n : forall i ki prev, length (key_loop F P n i ki prev) = n.
Proof. induction n as [|n IH]; intros; cbn [key_loop length]; [reflexivity|]. now rewrite IH. Qed.

Lemma key_loop_S n i ki prev : key_loop F P (S n) i ki prev =
  linear_op F (MDS F P) (pow_vector F prev (round_exp F P i)) (linear_op F (Kmat F P) ki (Cadd F P)) ::
  key_loop F P n (S i) (linear_op F (Kmat F P) ki (Cadd F P))
    (linear_op F (MDS F P) (pow_vector F prev (round_exp F P i)) (linear_op F (Kmat F P) ki (Cadd F P))).
Proof. reflexivity. Qed.
Lemma round_loop_keys n : forall i s ks ki, vec4 s -> vec4 ks -> vec4 ki ->
  fst (fst (round_loop F P n i (s, ks, ki))) =
  half_rounds F (MDS F P) (fst (exps i)) (snd (exps i)) (key_loop F P n i ki ks) s.
Proof.
  induction n as [|n IH]; intros i s ks ki Hs Hks Hki; [reflexivity|].
  rewrite key_loop_S. cbn [round_loop half_rounds]. unfold rescue_round.
  set (ki' := linear_op F (Kmat F P) ki (Cadd F P)).
  set (ks' := linear_op F (MDS F P) (pow_vector F ks (round_exp F P i)) ki').
  assert (Hki' : vec4 ki') by now apply linear_op_vec4.
  assert (Hks' : vec4 ks') by (apply linear_op_vec4; now apply map_vec4).
  rewrite IH; [|apply linear_op_vec4; now apply map_vec4|assumption|assumption].
  rewrite exps_S. cbn [fst snd]. f_equal. unfold half_round.
  rewrite linear_op_affine; [|apply HP|now apply map_vec4|assumption].
  unfold pow_vector. now rewrite round_exp_fst.
Qed.
Lemma add_zeros : add_vectors F [0;0;0;0] (IC F P) = IC F P.
Proof.
  destruct HP as [_ [_ [_ [HIC _]]]]. vec HIC. unfold add_vectors. cbn. repeat (apply f_equal2; [ring|]). reflexivity.
Qed.
(** The hash is the keyed permutation for the zero key. *)
Lemma rescue_keyed s : vec4 s ->
  rescue F P s = Ok (keyed F (MDS F P) (ainv F P) 5 (key_scheduling F P [0;0;0;0]) s).
Proof.
  intros Hs. destruct HP as [HS [_ [_ [HIC _]]]]. unfold rescue. rewrite HS, Hs. cbn [Nat.eqb].
  rewrite round_loop_keys; [|now apply add_vec4|assumption|assumption].
  unfold keyed, key_scheduling. cbn zeta. rewrite add_zeros. reflexivity.
Qed.
Lemma keyed_schedule_bij key : vec4 key -> bijective4 F (keyed F (MDS F P) (ainv F P) 5 (key_scheduling F P key)).
Proof.
  intros Hk. pose proof HP as HP'. destruct HP' as [_ [HM [_ [_ [_ [_ [He [Mi [HMi HI]]]]]]]]].
  apply (keyed_bij _ Mi); try assumption; [now apply exp_inv_sym|now apply key_scheduling_vec4].
Qed.
Lemma rescue_len s : vec4 s -> exists t, vec4 t /\ rescue F P s = Ok t.
Proof.
  intros Hs. eexists. split; [|apply rescue_keyed, Hs]. apply keyed_schedule_bij; [reflexivity|assumption].
Qed.

(** ** The gadget *)
Section Gadget.
Context (e : N) (He : exp_inv F 5 e).

Lemma addc_row_eq w v k o : gate_eq w (addc_row F v k o) <-> w o = w v + k.
Proof.
  unfold gate_eq, addc_row. cbn [q1 q2 q3 q4 qm1 qm2 qc qecc qh1 qh2 qh3 qh4 qo w1 w2 w3 w4 wo g_pub].
  split; intros H; [replace (w o) with (1 * w o) by ring; rewrite <- H; ring|rewrite H; ring].
Qed.
Lemma lin_row_eq w vs m k o : vec4 m -> length vs = 4%nat ->
  (gate_eq w (lin_row F vs m k o) <-> w o = dot F m (map w vs) + k).
Proof.
  intros Hm Hv. vec Hm. destruct vs as [|v0 [|v1 [|v2 [|v3 [|? ?]]]]]; try discriminate.
  unfold gate_eq, lin_row, wire4, dot, fsum. cbn [q1 q2 q3 q4 qm1 qm2 qc qecc qh1 qh2 qh3 qh4 qo w1 w2 w3 w4 wo g_pub nth map combine fst snd fold_right].
  split; intros H; [transitivity (1 * w o); [ring|]; rewrite <- H; ring|rewrite H; ring].
Qed.
Lemma nonlin_row_eq w vs m k o : vec4 m -> length vs = 4%nat ->
  (gate_eq w (nonlin_row F vs m k o) <-> w o = dot F m (map (fun v => fpowN (w v) 5) vs) + k).
Proof.
  intros Hm Hv. vec Hm. destruct vs as [|v0 [|v1 [|v2 [|v3 [|? ?]]]]]; try discriminate.
  unfold gate_eq, nonlin_row, wire4, dot, fsum. cbn [q1 q2 q3 q4 qm1 qm2 qc qecc qh1 qh2 qh3 qh4 qo w1 w2 w3 w4 wo g_pub nth map combine fst snd fold_right].
  rewrite !fpowN_5.
  split; intros H; [transitivity (1 * w o); [ring|]; rewrite <- H; ring|rewrite H; ring].
Qed.
Lemma pow5inv_row_eq w v o : gate_eq w (pow5inv_row F v o) <-> w o = fpowN (w v) e.
Proof.
  unfold gate_eq, pow5inv_row. cbn [q1 q2 q3 q4 qm1 qm2 qc qecc qh1 qh2 qh3 qh4 qo w1 w2 w3 w4 wo g_pub].
  assert (E : gate_eq w (pow5inv_row F v o) <-> fpowN (w o) 5 = w v).
  { unfold gate_eq, pow5inv_row. cbn [q1 q2 q3 q4 qm1 qm2 qc qecc qh1 qh2 qh3 qh4 qo w1 w2 w3 w4 wo g_pub].
    rewrite fpowN_5. split; intros H.
    - transitivity (1 * w v); [|ring]. rewrite <- H. ring.
    - rewrite <- H. ring. }
  unfold gate_eq, pow5inv_row in E. cbn [q1 q2 q3 q4 qm1 qm2 qc qecc qh1 qh2 qh3 qh4 qo w1 w2 w3 w4 wo g_pub] in E.
  rewrite E. split; intros H.
  - now rewrite <- H, (pow_inv_l F 5 e).
  - now rewrite H, (pow_inv_r F 5 e).
Qed.

Lemma mapM_sound {A} (f : A -> CS F nat) (v : (nat -> F) -> A -> F) l :
  (forall a, In a l -> sound (f a) (fun w o => w o = v w a)) ->
  sound (mapM F f l) (fun w os => map w os = map (v w) l).
Proof.
  induction l as [|a l IH]; intros H; cbn [mapM].
  - apply sr. reflexivity.
  - eapply sb; [apply H; left; reflexivity|]. intros o. eapply sb; [apply IH; intros; apply H; now right|].
    intros os. apply sr. intros w E1 E2. cbn [map]. now rewrite E1, E2.
Qed.

Lemma add_constant_state_sound vs k :
  sound (add_constant_state F vs k) (fun w os => map w os = map (fun p => fst p + snd p) (combine (map w vs) k)).
Proof.
  eapply sw; [apply (mapM_sound _ (fun w (p : nat * F) => w (fst p) + snd p))|].
  - intros [v x] _. unfold add_constant. apply (new_state_sound F (fun s => _)). intros o.
    eapply seq_ret_sound; [apply sound_push|]. intros w _ [H _]. now apply addc_row_eq in H.
  - intros w os ->. clear. revert k. induction vs as [|v vs IH]; intros [|x k]; cbn; [reflexivity..|]. now rewrite IH.
Qed.
Lemma seq_nth4 {A B} (f : A -> B -> F) (M : list A) (k : list B) dA dB : length M = 4%nat -> length k = 4%nat ->
  map (fun i => f (nth i M dA) (nth i k dB)) (seq 0 4) = map (fun p => f (fst p) (snd p)) (combine M k).
Proof.
  destruct M as [|? [|? [|? [|? [|? ?]]]]]; try discriminate.
  destruct k as [|? [|? [|? [|? [|? ?]]]]]; try discriminate. reflexivity.
Qed.
Lemma row_vec4 M i : mat4 M -> In i (seq 0 4) -> vec4 (nth i M []).
Proof.
  intros [H1 H2] Hi. apply in_seq in Hi. rewrite Forall_forall in H2. apply H2, nth_In. lia.
Qed.
Lemma linear_cs_sound vs key : length vs = 4%nat -> vec4 key ->
  sound (linear_op_cs F P vs key) (fun w os => map w os = affine F (MDS F P) key (map w vs)).
Proof.
  intros Hv Hk. destruct HP as [_ [HM _]].
  eapply sw; [apply (mapM_sound _ (fun w i => dot F (nth i (MDS F P) []) (map w vs) + nth i key 0))|].
  - intros i Hi. unfold add_linear_op_constraint. apply (new_state_sound F (fun s => _)). intros o.
    eapply seq_ret_sound; [apply sound_push|]. intros w _ [H _].
    apply lin_row_eq in H; [exact H|now apply row_vec4|exact Hv].
  - intros w os ->. apply (seq_nth4 (fun m x => dot F m (map w vs) + x)); [apply HM|exact Hk].
Qed.
Lemma nonlinear_cs_sound vs key : length vs = 4%nat -> vec4 key ->
  sound (non_linear_op_cs F P vs key) (fun w os => map w os = half_round F (MDS F P) 5 key (map w vs)).
Proof.
  intros Hv Hk. destruct HP as [_ [HM _]].
  eapply sw; [apply (mapM_sound _ (fun w i => dot F (nth i (MDS F P) []) (map (fun v => fpowN (w v) 5) vs) + nth i key 0))|].
  - intros i Hi. unfold add_non_linear_op_constraint. apply (new_state_sound F (fun s => _)). intros o.
    eapply seq_ret_sound; [apply sound_push|]. intros w _ [H _].
    apply nonlin_row_eq in H; [exact H|now apply row_vec4|exact Hv].
  - intros w os ->. unfold half_round, affine. rewrite map_map.
    apply (seq_nth4 (fun m x => dot F m (map (fun v => fpowN (w v) 5) vs) + x)); [apply HM|exact Hk].
Qed.
Lemma pow_5_inv_sound vs : sound (pow_5_inv F e vs) (fun w os => map w os = map (fun x => fpowN x e) (map w vs)).
Proof.
  eapply sw; [apply (mapM_sound _ (fun w v => fpowN (w v) e))|].
  - intros v _. unfold add_pow_5_inv_constraint. apply (new_state_sound F (fun s => _)). intros o.
    eapply seq_ret_sound; [apply sound_push|]. intros w _ [H _]. now apply pow5inv_row_eq in H.
  - intros w os ->. now rewrite map_map.
Qed.
Lemma mapM_len {A} (f : A -> CS F nat) l : forall c, length (fst (mapM F f l c)) = length l.
Proof.
  induction l as [|a l IH]; intros c; cbn [mapM]; [reflexivity|]. rewrite !bnd_eq. cbn [ret fst length]. now rewrite IH.
Qed.
(** The length of a result is known independently of the assignment. *)
Lemma sound_len {A B} (m : CS F (list A)) (f : list A -> CS F B) n R (Q : (nat -> F) -> B -> Prop) :
  (forall c, length (fst (m c)) = n) -> sound m R ->
  (forall l, length l = n -> sound (f l) (fun w b => R w l -> Q w b)) -> sound (bnd m f) Q.
Proof.
  intros HL Hm Hf c w H. rewrite bnd_eq in *. apply Hf in H; [|apply HL]. destruct H as [H1 H2].
  apply Hm in H1. destruct H1 as [H1 H3]. auto.
Qed.
Lemma step_len r vs key c : length (fst ((if Nat.even r then bnd (pow_5_inv F e vs) (fun vs' => linear_op_cs F P vs' key)
           else non_linear_op_cs F P vs key) c)) = 4%nat.
Proof.
  destruct (Nat.even r).
  - rewrite bnd_eq. unfold linear_op_cs. now rewrite mapM_len.
  - unfold non_linear_op_cs. now rewrite mapM_len.
Qed.
Lemma step_sound r vs key : length vs = 4%nat -> vec4 key ->
  sound (if Nat.even r then bnd (pow_5_inv F e vs) (fun vs' => linear_op_cs F P vs' key)
         else non_linear_op_cs F P vs key)
    (fun w os => map w os = half_round F (MDS F P) (if Nat.even r then e else 5%N) key (map w vs)).
Proof.
  intros Hv Hk. destruct (Nat.even r).
  - eapply (sound_len _ _ 4%nat); [intros c; unfold pow_5_inv; now rewrite mapM_len|apply pow_5_inv_sound|].
    intros vs' Hl. eapply sw; [now apply linear_cs_sound|]. intros w os E1 E2. cbn beta in *. unfold half_round. now rewrite E1, E2.
  - now apply nonlinear_cs_sound.
Qed.
Lemma hash_loop_sound keys : forall r vs, length vs = 4%nat -> Forall vec4 keys ->
  sound (hash_loop F P e keys r vs)
    (fun w os => map w os =
       half_rounds F (MDS F P) (if Nat.even r then e else 5%N) (if Nat.even r then 5%N else e) keys (map w vs)).
Proof.
  induction keys as [|key keys IH]; intros r vs Hv Hk; cbn [hash_loop half_rounds]; [apply sr; reflexivity|].
  inversion Hk as [|? ? Hk1 Hk2]; subst.
  eapply (sound_len _ _ 4%nat); [apply step_len|now apply step_sound|].
  intros vs' Hl. eapply sw; [now apply IH|]. intros w os E1 E2. cbn beta in *. rewrite E1, E2.
  rewrite Nat.even_succ, <- Nat.negb_even. now destruct (Nat.even r).
Qed.
Lemma key_scheduling_eq key : key_scheduling F P key =
  add_vectors F key (IC F P) :: key_loop F P (2 * num_rounds F P) 0 (IC F P) (add_vectors F key (IC F P)).
Proof. reflexivity. Qed.
End Gadget.

Lemma pow_ext_inv (x : F) a b : exp_inv F 5 a -> exp_inv F 5 b -> fpowN x a = fpowN x b.
Proof.
  intros Ha Hb. apply (pow_inj F 5 a); [exact Ha|]. now rewrite (pow_inv_r F 5 a), (pow_inv_r F 5 b).
Qed.
Lemma half_rounds_ext M a b : exp_inv F 5 a -> exp_inv F 5 b -> forall keys s,
  half_rounds F M a 5 keys s = half_rounds F M b 5 keys s /\
  half_rounds F M 5 a keys s = half_rounds F M 5 b keys s.
Proof.
  intros Ha Hb. induction keys as [|k keys IH]; intros s; [split; reflexivity|].
  cbn [half_rounds]. split.
  - rewrite (proj2 (IH _)). f_equal. unfold half_round. f_equal. apply map_ext. intros x. now apply pow_ext_inv.
  - apply IH.
Qed.

(** Every assignment satisfying the gadget's gates gives its outputs the hash of
    its inputs. *)
Lemma rescue_hash_sound e vs : exp_inv F 5 e -> length vs = 4%nat ->
  sound (rescue_hash F P e vs) (fun w os => rescue F P (map w vs) = Ok (map w os)).
Proof.
  intros He Hv. assert (HK := key_scheduling_vec4 [0;0;0;0] eq_refl).
  unfold rescue_hash. rewrite key_scheduling_eq in *. cbn zeta. cbn [hd tl].
  inversion HK as [|? ? HK1 HK2]; subst.
  eapply (sound_len _ _ 4%nat); [|apply add_constant_state_sound|].
  - intros c. unfold add_constant_state. rewrite mapM_len, combine_length, Hv, HK1. reflexivity.
  - intros vs' Hl. eapply sw; [apply (hash_loop_sound e He); [exact Hl|exact HK2]|].
    intros w os E1 E2. cbn beta in *. cbn [Nat.even] in E1.
    rewrite rescue_keyed by (unfold RescueSpec.vec4; now rewrite map_length).
    rewrite E1, E2, key_scheduling_eq. cbn [keyed]. f_equal. apply half_rounds_ext; [apply HP|exact He].
Qed.
Lemma hash_loop_len e keys : forall r vs c, length vs = 4%nat -> length (fst (hash_loop F P e keys r vs c)) = 4%nat.
Proof.
  induction keys as [|key keys IH]; intros r vs c Hv; cbn [hash_loop]; [exact Hv|].
  rewrite bnd_eq. apply IH. apply step_len.
Qed.
Lemma rescue_hash_len e vs c : length vs = 4%nat -> length (fst (rescue_hash F P e vs c)) = 4%nat.
Proof.
  intros Hv. assert (HK := key_scheduling_vec4 [0;0;0;0] eq_refl).
  unfold rescue_hash. rewrite key_scheduling_eq in *. cbn zeta. cbn [hd tl]. inversion HK as [|? ? HK1 HK2]; subst.
  rewrite bnd_eq. apply hash_loop_len. unfold add_constant_state. now rewrite mapM_len, combine_length, Hv, HK1.
Qed.

(** ** The honest run *)
Lemma ha_out (c : tcs F) (v : tcs F -> F) x (g : nat -> gate F) :
  Inv c -> v c = x ->
  (forall c' o, Inv c' -> extends c c' -> has F c' o x ->
     wire_lt (nvars c') (g o) /\ gate_eq (val c') (g o) /\ gate_bool (val c') (g o)) ->
  ha F (fun s => bnd (new_variable F (v s)) (fun o => bnd (push_gate F (g o)) (fun _ => ret o)) s) c
    (fun o c' => has F c' o x).
Proof.
  intros HI Hv Hg. change (ha F (bnd (new_variable F (v c)) (fun o => bnd (push_gate F (g o)) (fun _ => ret o))) c
    (fun o c' => has F c' o x)). rewrite Hv. eapply hb; [now apply ha_new|]. intros o c1 I1 E1 Ho. cbn beta in Ho.
  destruct (Hg c1 o I1 E1 Ho) as [G1 [G2 G3]].
  eapply hb; [now apply ha_push|]. intros _ c2 I2 E2 _. apply hr; [exact I2|]. now apply (has_mono F c1).
Qed.
Lemma mapM_ha {A} (f : A -> CS F nat) l : forall xs c, Inv c ->
  length xs = length l ->
  (forall a x c', In (a, x) (combine l xs) -> Inv c' -> extends c c' -> ha F (f a) c' (fun o c'' => has F c'' o x)) ->
  ha F (mapM F f l) c (fun os c' => Forall2 (has F c') os xs).
Proof.
  induction l as [|a l IH]; intros [|x xs] c HI HL H; try discriminate; cbn [mapM].
  - apply hr; [exact HI|constructor].
  - eapply hb; [apply (H a x); [left; reflexivity|exact HI|apply extends_refl]|]. intros o c1 I1 E1 Ho. cbn beta in Ho.
    eapply hb; [apply (IH xs c1 I1); [now injection HL|]|].
    + intros a' x' c' Hin I' E'. apply H; [right; exact Hin|exact I'|]. eapply extends_trans; eassumption.
    + intros os c2 I2 E2 Hos. cbn beta in Hos. apply hr; [exact I2|]. constructor; [|exact Hos]. now apply (has_mono F c1).
Qed.
Lemma has_map c vs xs : Forall2 (has F c) vs xs -> map (val c) vs = xs.
Proof. induction 1 as [|v x vs xs [_ H] _ IH]; cbn; [reflexivity|]. now rewrite H, IH. Qed.
Lemma has_all_lt c vs xs : Forall2 (has F c) vs xs -> Forall (fun v => (v < nvars c)%nat) vs.
Proof. induction 1 as [|v x vs xs [H _] _ IH]; constructor; auto. Qed.
Lemma wire4_lt (c : tcs F) vs i : Inv c -> Forall (fun v => (v < nvars c)%nat) vs -> (wire4 vs i < nvars c)%nat.
Proof.
  intros [_ [HI _]] H. unfold wire4. destruct (Nat.lt_ge_cases i (length vs)) as [L|L].
  - rewrite Forall_forall in H. apply H. now apply nth_In.
  - rewrite nth_overflow by exact L. lia.
Qed.

Lemma fold_dot (f : nat -> F) vs m k : vec4 m -> length vs = 4%nat ->
  fold_left (fun a i => a + nth i m 0 * f (wire4 vs i)) (seq 0 4) k = dot F m (map f vs) + k.
Proof.
  intros Hm Hv. vec Hm. destruct vs as [|v0 [|v1 [|v2 [|v3 [|? ?]]]]]; try discriminate.
  unfold wire4, dot, fsum. cbn. ring.
Qed.

Lemma ha_add_constant_state vs xs k c : Inv c -> Forall2 (has F c) vs xs -> length k = length vs ->
  ha F (add_constant_state F vs k) c (fun os c' => Forall2 (has F c') os (map (fun p => fst p + snd p) (combine xs k))).
Proof.
  intros HI HV HL. pose proof (f2len _ _ _ HV) as HL2.
  apply mapM_ha; [exact HI|rewrite map_length, !combine_length; lia|].
  intros [v kk] x c' Hin I' E'. cbn [fst snd].
  assert (Hx : exists y, has F c' v y /\ x = y + kk).
  { apply (has2_mono F c c' _ _ E') in HV. clear - HV Hin.
    revert xs HV k Hin. induction vs as [|v0 vs IH]; intros xs HV k Hin; [contradiction|].
    inversion HV as [|? y ? ys Hy Hys]; subst. destruct k as [|k0 k]; [contradiction|]. cbn in Hin.
    destruct Hin as [E|Hin]; [|now apply (IH ys Hys k)]. injection E as <- <- <-. now exists y. }
  destruct Hx as [y [[L1 H1] ->]].
  unfold add_constant. apply (ha_out c'); [exact I'|now rewrite H1|].
  intros c'' o I'' E'' [L2 H2]. split; [|split; [|now apply nobool]].
  - pose proof I'' as [_ [HI2 _]]. destruct E'' as [E1 _]. split; [cbn; lia|exact I].
  - apply addc_row_eq. rewrite H2. f_equal. symmetry. now rewrite (proj2 E'') by exact L1.
Qed.
Lemma in_combine_seq (f : nat -> F) a x : In (a, x) (combine (seq 0 4) (map f (seq 0 4))) -> x = f a /\ In a (seq 0 4).
Proof.
  intros H. split; [|eapply in_combine_l; exact H]. cbn in H.
  repeat (destruct H as [H|H]; [injection H as <- <-; reflexivity|]). contradiction.
Qed.
Lemma ha_linear_cs vs xs key c : Inv c -> Forall2 (has F c) vs xs -> length vs = 4%nat -> vec4 key ->
  ha F (linear_op_cs F P vs key) c (fun os c' => Forall2 (has F c') os (affine F (MDS F P) key xs)).
Proof.
  intros HI HV HL HK. destruct HP as [_ [HM _]].
  unfold affine. rewrite <- (seq_nth4 (fun m x => dot F m xs + x) (MDS F P) key [] 0); [|apply HM|exact HK].
  apply mapM_ha; [exact HI|now rewrite map_length|].
  intros i x c' Hin I' E'. apply in_combine_seq in Hin. destruct Hin as [-> Hin].
  pose proof (has2_mono F c c' _ _ E' HV) as HV'.
  unfold add_linear_op_constraint. apply (ha_out c'); [exact I'| |].
  { rewrite (fold_dot (val c')); [|now apply row_vec4|exact HL]. now rewrite (has_map _ _ _ HV'). }
  intros c'' o I'' E'' [L2 H2].
  pose proof (has2_mono F c' c'' _ _ E'' HV') as HV''.
  split; [|split; [|now apply nobool]].
  - split; [cbn|exact I]. repeat split; try apply wire4_lt; try assumption; now apply (has_all_lt _ _ xs).
  - apply lin_row_eq; [now apply row_vec4|exact HL|]. rewrite H2. now rewrite (has_map _ _ _ HV'').
Qed.
Lemma ha_nonlinear_cs vs xs key c : Inv c -> Forall2 (has F c) vs xs -> length vs = 4%nat -> vec4 key ->
  ha F (non_linear_op_cs F P vs key) c (fun os c' => Forall2 (has F c') os (half_round F (MDS F P) 5 key xs)).
Proof.
  intros HI HV HL HK. destruct HP as [_ [HM _]].
  unfold half_round, affine. rewrite <- (seq_nth4 (fun m x => dot F m (map (fun x => fpowN x 5) xs) + x) (MDS F P) key [] 0); [|apply HM|exact HK].
  apply mapM_ha; [exact HI|now rewrite map_length|].
  intros i x c' Hin I' E'. apply in_combine_seq in Hin. destruct Hin as [-> Hin].
  pose proof (has2_mono F c c' _ _ E' HV) as HV'.
  unfold add_non_linear_op_constraint. apply (ha_out c'); [exact I'| |].
  { rewrite (fold_dot (fun v => fpowN (val c' v) 5)); [|now apply row_vec4|exact HL].
    now rewrite <- (map_map (val c') (fun x => fpowN x 5)), (has_map _ _ _ HV'). }
  intros c'' o I'' E'' [L2 H2].
  pose proof (has2_mono F c' c'' _ _ E'' HV') as HV''.
  split; [|split; [|now apply nobool]].
  - split; [cbn|exact I]. repeat split; try apply wire4_lt; try assumption; now apply (has_all_lt _ _ xs).
  - apply nonlin_row_eq; [now apply row_vec4|exact HL|]. rewrite H2.
    now rewrite <- (map_map (val c'') (fun x => fpowN x 5)), (has_map _ _ _ HV'').
Qed.
Lemma ha_pow_5_inv e vs xs c : exp_inv F 5 e -> Inv c -> Forall2 (has F c) vs xs ->
  ha F (pow_5_inv F e vs) c (fun os c' => Forall2 (has F c') os (map (fun x => fpowN x e) xs)).
Proof.
  intros He HI HV. pose proof (f2len _ _ _ HV) as HL.
  apply mapM_ha; [exact HI|now rewrite map_length|].
  intros v x c' Hin I' E'.
  assert (Hx : exists y, has F c' v y /\ x = fpowN y e).
  { apply (has2_mono F c c' _ _ E') in HV. clear - HV Hin.
    revert xs HV Hin. induction vs as [|v0 vs IH]; intros xs HV Hin; [contradiction|].
    inversion HV as [|? y ? ys Hy Hys]; subst. cbn in Hin.
    destruct Hin as [E|Hin]; [|now apply (IH ys Hys)]. injection E as <- <-. now exists y. }
  destruct Hx as [y [[L1 H1] ->]].
  unfold add_pow_5_inv_constraint. apply (ha_out c'); [exact I'|now rewrite H1|].
  intros c'' o I'' E'' [L2 H2]. split; [|split; [|now apply nobool]].
  - pose proof I'' as [_ [HI2 _]]. destruct E'' as [E1 _]. split; [cbn; lia|exact I].
  - apply (pow5inv_row_eq e He). rewrite H2. rewrite (proj2 E'' _ L1), H1. reflexivity.
Qed.
Lemma ha_hash_loop e keys : exp_inv F 5 e -> forall r vs xs c, Inv c -> Forall2 (has F c) vs xs -> length vs = 4%nat ->
  Forall vec4 keys ->
  ha F (hash_loop F P e keys r vs) c (fun os c' => Forall2 (has F c') os
    (half_rounds F (MDS F P) (if Nat.even r then e else 5%N) (if Nat.even r then 5%N else e) keys xs)).
Proof.
  intros He. induction keys as [|key keys IH]; intros r vs xs c HI HV HL HK; cbn [hash_loop half_rounds].
  - now apply hr.
  - inversion HK as [|? ? HK1 HK2]; subst.
    assert (HS : ha F (if Nat.even r then bnd (pow_5_inv F e vs) (fun vs' => linear_op_cs F P vs' key)
         else non_linear_op_cs F P vs key) c (fun os c' => Forall2 (has F c') os
         (half_round F (MDS F P) (if Nat.even r then e else 5%N) key xs))).
    { destruct (Nat.even r); [|now apply ha_nonlinear_cs].
      eapply hb; [eapply ha_pow_5_inv; eassumption|]. intros os c1 I1 E1 Hos. cbn beta in Hos.
      apply ha_linear_cs; [exact I1|exact Hos| |exact HK1].
      apply f2len in Hos. rewrite Hos, map_length. apply f2len in HV. lia. }
    eapply hb; [exact HS|]. intros os c1 I1 E1 Hos. cbn beta in Hos.
    assert (HL1 : length os = 4%nat).
    { apply f2len in Hos. rewrite Hos. apply affine_vec4; [apply HP|exact HK1]. }
    eapply hw; [apply (IH (S r) os _ c1 I1 Hos HL1 HK2)|].
    intros os' c2 _ _ H. cbn beta in H. rewrite Nat.even_succ, <- Nat.negb_even in H. now destruct (Nat.even r).
Qed.
(** Run on a satisfied system, the gadget keeps it satisfied and its outputs carry
    the hash of the input values. *)
Lemma ha_rescue_hash e vs xs h c : exp_inv F 5 e -> Inv c -> Forall2 (has F c) vs xs -> length vs = 4%nat ->
  rescue F P xs = Ok h -> ha F (rescue_hash F P e vs) c (fun os c' => Forall2 (has F c') os h).
Proof.
  intros He HI HV HL HR. assert (HK := key_scheduling_vec4 [0;0;0;0] eq_refl).
  assert (HX : vec4 xs) by (unfold RescueSpec.vec4; apply f2len in HV; lia).
  rewrite rescue_keyed in HR by exact HX. apply Ok_inj in HR. rewrite <- HR. clear HR.
  unfold rescue_hash. rewrite key_scheduling_eq in *. cbn zeta. cbn [hd tl keyed].
  inversion HK as [|? ? HK1 HK2]; subst.
  eapply hb; [apply ha_add_constant_state; [exact HI|exact HV|]|].
  - rewrite HL. exact HK1.
  - intros os c1 I1 E1 Hos. cbn beta in Hos.
    assert (HL1 : length os = 4%nat) by (apply f2len in Hos; rewrite Hos; now apply add_vec4).
    eapply hw; [apply (ha_hash_loop e _ He 0%nat os _ c1 I1 Hos HL1 HK2)|].
    intros os' c2 _ _ H. cbn beta in H. cbn [Nat.even] in H.
    rewrite (proj1 (half_rounds_ext (MDS F P) (ainv F P) e (proj1 (proj2 (proj2 (proj2 (proj2 (proj2 (proj2 HP))))))) He _ _)).
    exact H.
Qed.
End Instance.
End Proofs.
