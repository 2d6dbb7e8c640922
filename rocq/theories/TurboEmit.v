(** What gates a gadget adds: none is removed, and the added ones have given
    properties.  Used for the order of the public inputs and for the absence of
    variable 1. *)
From Coq Require Import List ZArith NArith Bool Lia ZifyBool ZifyNat.
From Verif Require Import Base Field PField TurboModel TurboSpec TurboProofs TurboKit Power RescueModel MixModel MixLemmas.
Import ListNotations.
Local Open Scope F_scope.

(** The values of the public inputs of a system under an assignment, in order
    (turbo.rs 808-810 [get_pub_vars], in the order of the gates). *)
Definition pub_of {F : PField} (w : nat -> F) (g : gate F) : list F :=
  match g_pub g with Some v => [w v] | None => [] end.
Definition pub_values {F : PField} (w : nat -> F) (c : tcs F) : list F := flat_map (pub_of w) (gates c).

Section Emit.
Context (F : PField).
Implicit Types (c : tcs F) (K : gate F -> Prop).

Definition emits K {A} (m : CS F A) (Q : A -> Prop) : Prop :=
  forall c, (2 <= nvars c)%nat ->
  exists gs, grev (snd (m c)) = gs ++ grev c /\ Forall K gs /\ (nvars c <= nvars (snd (m c)))%nat /\ Q (fst (m c)).

Lemma eb K {A B} (m : CS F A) (f : A -> CS F B) Q1 Q :
  emits K m Q1 -> (forall a, Q1 a -> emits K (f a) Q) -> emits K (bnd m f) Q.
Proof.
  intros Hm Hf c Hc. rewrite bnd_eq. destruct (Hm c Hc) as [g1 [E1 [K1 [N1 H1]]]].
  destruct (Hf _ H1 (snd (m c))) as [g2 [E2 [K2 [N2 H2]]]]; [lia|].
  exists (g2 ++ g1). rewrite E2, E1, app_assoc. split; [reflexivity|]. split; [now apply Forall_app|]. split; [lia|exact H2].
Qed.
Lemma er K {A} (a : A) (Q : A -> Prop) : Q a -> emits K (ret a) Q.
Proof. intros H c Hc. exists []. cbn. repeat split; auto. Qed.
Lemma ew K {A} (m : CS F A) (Q Q' : A -> Prop) : emits K m Q -> (forall a, Q a -> Q' a) -> emits K m Q'.
Proof. intros H HQ c Hc. destruct (H c Hc) as [gs [H1 [H2 [H3 H4]]]]. exists gs. auto. Qed.
Lemma e_new K x : emits K (new_variable F x) (fun o => (2 <= o)%nat).
Proof. intros c Hc. exists []. cbn. repeat split; auto. Qed.
Lemma e_push K g : K g -> emits K (push_gate F g) (fun _ => True).
Proof. intros H c Hc. exists [g]. cbn. repeat split; auto. Qed.
Lemma e_peek K i : emits K (peek F i) (fun _ => True).
Proof. intros c Hc. exists []. cbn. repeat split; auto. Qed.
Lemma e_state K {A B} (v : tcs F -> B) (f : B -> CS F A) (Q : A -> Prop) :
  (forall x, emits K (f x) Q) -> emits K (fun s => f (v s) s) Q.
Proof. intros H c Hc. exact (H (v c) c Hc). Qed.
Lemma e_news K vs : emits K (new_variables F vs) (fun os => length os = length vs /\ Forall (fun o => (2 <= o)%nat) os).
Proof.
  induction vs as [|v vs IH]; cbn [new_variables]; [apply er; auto|].
  eapply eb; [apply e_new|]. intros a Ha. eapply eb; [exact IH|]. intros l [L1 L2]. apply er.
  split; [cbn; lia|constructor; assumption].
Qed.
Lemma e_mapM K {A B} (f : A -> CS F B) (Q : B -> Prop) l :
  (forall a, emits K (f a) Q) -> emits K (RescueModel.mapM F f l) (fun bs => length bs = length l /\ Forall Q bs).
Proof.
  intros H. induction l as [|a l IH]; cbn [RescueModel.mapM]; [apply er; auto|].
  eapply eb; [apply H|]. intros b Hb. eapply eb; [exact IH|]. intros bs [L1 L2]. apply er. split; [cbn; lia|constructor; assumption].
Qed.

(** Gates that are not public and whose wires satisfy [ok], a property of
    variables holding for variable 0 and for new ones. *)
Section Wires.
Context (ok : nat -> Prop) (ok0 : ok 0%nat) (ok2 : forall i, (2 <= i)%nat -> ok i).
Definition plain (g : gate F) : Prop :=
  g_pub g = None /\ ok (w1 g) /\ ok (w2 g) /\ ok (w3 g) /\ ok (w4 g) /\ ok (wo g).
Notation em := (emits plain).
Lemma e_out (v : tcs F -> F) (g : nat -> gate F) : (forall o, ok o -> plain (g o)) ->
  em (fun s => bnd (new_variable F (v s)) (fun o => bnd (push_gate F (g o)) (fun _ => ret o)) s) ok.
Proof.
  intros H. apply (e_state _ v (fun x => bnd (new_variable F x) (fun o => bnd (push_gate F (g o)) (fun _ => ret o)))).
  intros x. eapply eb; [apply e_new|]. intros o Ho. eapply eb; [apply e_push, H; auto|]. intros _ _. apply er. auto.
Qed.
Ltac pl := repeat split; try assumption; try reflexivity.
Lemma e_lc a b (c : nat) d k1 k2 k3 k4 : ok a -> ok b -> ok c -> ok d -> em (linear_combine F a b c d k1 k2 k3 k4) ok.
Proof. intros. apply (e_out (fun s => _) (fun o => lc_row F a b c d o k1 k2 k3 k4)). intros o Ho. pl. Qed.
Lemma e_add a b : ok a -> ok b -> em (add F a b) ok.
Proof. intros. apply (e_out (fun s => _) (fun o => lc_row F a b 0 0 o 1 1 0 0)). intros o Ho. pl. Qed.
Lemma e_sub a b : ok a -> ok b -> em (sub F a b) ok.
Proof. intros. apply (e_out (fun s => _) (fun o => lc_row F a b 0 0 o 1 (- (1)) 0 0)). intros o Ho. pl. Qed.
Lemma e_mul a b : ok a -> ok b -> em (mul F a b) ok.
Proof. intros. apply (e_out (fun s => _) (fun o => mul_row F a b o)). intros o Ho. pl. Qed.
Lemma e_select a b d : ok a -> ok b -> ok d -> em (select F a b d) ok.
Proof. intros. apply (e_out (fun s => _) (fun o => select_row F a b d o)). intros o Ho. pl. Qed.
Lemma e_equal a b : ok a -> ok b -> em (equal F a b) (fun _ => True).
Proof. intros. apply e_push. pl. Qed.
Lemma e_mulgate a b d : ok a -> ok b -> ok d -> em (insert_mul_gate F a b d) (fun _ => True).
Proof. intros. apply e_push. pl. Qed.
Lemma e_bool a : ok a -> em (insert_boolean_gate F a) (fun _ => True).
Proof. intros. now apply e_mulgate. Qed.
Lemma e_const a k : ok a -> em (insert_constant_gate F a k) (fun _ => True).
Proof. intros. apply e_push. pl. Qed.

Lemma attach_push g c : attach_boolean F (snd (push_gate F g c)) = (tt, snd (push_gate F (mark F g) c)).
Proof. reflexivity. Qed.
Lemma plain_mark g : plain g -> plain (mark F g).
Proof. intros H. exact H. Qed.
Lemma e_lc_attach {A} a b (x : nat) d k1 k2 k3 k4 (f : nat -> CS F A) Q :
  ok a -> ok b -> ok x -> ok d -> (forall o, ok o -> em (f o) Q) ->
  em (bnd (linear_combine F a b x d k1 k2 k3 k4) (fun o => bnd (attach_boolean F) (fun _ => f o))) Q.
Proof.
  intros Ha Hb Hx Hd Hf c Hc.
  set (v := val c a * k1 + val c b * k2 + val c x * k3 + val c d * k4).
  assert (E : bnd (linear_combine F a b x d k1 k2 k3 k4) (fun o => bnd (attach_boolean F) (fun _ => f o)) c
    = bnd (new_variable F v) (fun o => bnd (push_gate F (mark F (lc_row F a b x d o k1 k2 k3 k4))) (fun _ => f o)) c)
    by reflexivity.
  rewrite E. clear E. revert c Hc v.
  intros c Hc v. refine (eb _ _ _ _ _ (e_new _ v) _ c Hc). intros o Ho.
  eapply eb; [apply e_push, plain_mark; pl; auto|]. intros _ _. apply Hf. auto.
Qed.
Lemma e_range_loop m : forall acc top, ok acc -> Forall ok top ->
  em (range_loop F m acc top) (fun r => ok (fst r) /\ Forall ok (snd r)).
Proof.
  induction m as [|m IH]; intros acc top Ha Ht; cbn [range_loop]; [apply er; auto|].
  destruct top as [|a [|b [|c rest]]]; try (apply er; auto).
  inversion Ht as [|? ? A1 Ht1]; inversion Ht1 as [|? ? A2 Ht2]; inversion Ht2 as [|? ? A3 Ht3]; subst.
  apply e_lc_attach; try assumption. intros o Ho. now apply IH.
Qed.
Lemma e_push_attach {A} g (f : CS F A) Q : plain g -> em f Q ->
  em (bnd (push_gate F g) (fun _ => bnd (attach_boolean F) (fun _ => f))) Q.
Proof.
  intros Hg Hf c Hc.
  assert (E : bnd (push_gate F g) (fun _ => bnd (attach_boolean F) (fun _ => f)) c
    = bnd (push_gate F (mark F g)) (fun _ => f) c) by reflexivity.
  rewrite E. refine (eb _ _ _ _ _ (e_push _ _ (plain_mark _ Hg)) _ c Hc). auto.
Qed.
Lemma e_range v n : ok v -> em (range_check F v n) (fun bs => Forall ok bs).
Proof.
  intros Hv.
  apply (e_state _ (fun s => map (bit F (toZ (val s v))) (seq 0 n))
    (fun vs => bnd (new_variables F vs) (fun b => match rev b with
      | [] => ret b
      | top :: rest => _ end))).
  intros vs. eapply eb; [apply e_news|]. intros b [_ Hb].
  assert (Ho : Forall ok b) by (eapply Forall_impl; [|exact Hb]; auto).
  assert (Hr : Forall ok (rev b)) by (apply Forall_rev, Ho).
  destruct (rev b) as [|top rest]; [apply er; exact Ho|].
  inversion Hr as [|? ? H1 H2]; subst.
  eapply eb; [apply e_bool; exact H1|]. intros _ _.
  eapply eb; [apply e_range_loop; assumption|]. intros r [R1 R2].
  unfold insert_lc_gate. destruct (snd r) as [|b2 [|b1 [|b0 l]]];
  repeat match goal with H : Forall ok (_ :: _) |- _ => inversion H; clear H; subst end;
  apply e_push_attach; try (apply er; exact Ho); pl; auto.
Qed.

(** Rescue. *)
Lemma e_wire4 vs i : Forall ok vs -> ok (wire4 vs i).
Proof.
  intros H. unfold wire4. destruct (Nat.lt_ge_cases i (length vs)) as [L|L].
  - rewrite Forall_forall in H. apply H. now apply nth_In.
  - rewrite nth_overflow by exact L. exact ok0.
Qed.
Lemma e_rescue P e vs : Forall ok vs -> em (rescue_hash F P e vs) (fun os => Forall ok os).
Proof.
  intros Hv. unfold rescue_hash. cbn zeta.
  eapply (eb _ _ _ (fun os => Forall ok os)).
  { unfold add_constant_state. revert Hv. generalize (hd [] (key_scheduling F P [0;0;0;0])). generalize vs.
    induction vs0 as [|v vs0 IH]; intros ks Hv; [apply er; constructor|]. destruct ks as [|k ks]; [apply er; constructor|].
    inversion Hv; subst. cbn [combine RescueModel.mapM fst snd]. eapply eb.
    - apply (e_out (fun s => _) (fun o => addc_row F v k o)). intros o Ho. pl.
    - intros o Ho. eapply eb; [now apply IH|]. intros os Hos. apply er. now constructor. }
  intros os Hos. revert Hos. generalize 0%nat. generalize os. generalize (tl (key_scheduling F P [0;0;0;0])).
  induction l as [|key keys IH]; intros us r Hu; cbn [hash_loop]; [now apply er|].
  eapply (eb _ _ _ (fun os => Forall ok os)); [|intros; now apply IH].
  destruct (Nat.even r).
  - eapply (eb _ _ _ (fun os => Forall ok os)).
    + unfold pow_5_inv. clear IH. induction Hu as [|u us Hu1 Hu2 IH]; cbn [RescueModel.mapM]; [apply er; constructor|].
      eapply eb; [apply (e_out (fun s => _) (fun o => pow5inv_row F u o)); intros o Ho; pl|].
      intros o Ho. eapply eb; [exact IH|]. intros xs Hx. apply er. now constructor.
    + intros xs Hx. unfold linear_op_cs. eapply ew; [apply (e_mapM _ _ ok)|intros a [_ H]; exact H].
      intros i. apply (e_out (fun s => _) (fun o => lin_row F xs _ _ o)). intros o Ho. pl; apply e_wire4; assumption.
  - unfold non_linear_op_cs. eapply ew; [apply (e_mapM _ _ ok)|intros a [_ H]; exact H].
    intros i. apply (e_out (fun s => _) (fun o => nonlin_row F us _ _ o)). intros o Ho. pl; apply e_wire4; assumption.
Qed.
End Wires.

(** No public gate at all: asset mixing. *)
Definition silent (g : gate F) : Prop := g_pub g = None.
Lemma plain_silent {A} (m : CS F A) Q : emits (plain (fun _ => True)) m Q -> emits silent m Q.
Proof.
  intros H c Hc. destruct (H c Hc) as [gs [H1 [H2 [H3 H4]]]]. exists gs. repeat split; try assumption.
  eapply Forall_impl; [|exact H2]. intros g [Hg _]. exact Hg.
Qed.
Notation ea := (emits (plain (fun _ => True))).
Local Hint Resolve I : core.
Ltac e1 := first [apply (e_add (fun _ => True)) | apply (e_sub (fun _ => True)) | apply (e_mul (fun _ => True))
  | apply (e_mulgate (fun _ => True)) | apply (e_const (fun _ => True)) | apply e_new | apply e_peek ]; auto.
Ltac es := repeat (eapply eb; [solve [e1]|intros ? ?]).
Lemma e_is_equal l r : ea (is_equal_or_not_equal F l r) (fun _ => True).
Proof. unfold is_equal_or_not_equal. es. apply er. exact I. Qed.
Lemma e_mixing ins outs ft fee : ea (asset_mixing F ins outs ft fee) (fun _ => True).
Proof.
  assert (SM : forall t l s, ea (sum_matching F t l s) (fun _ => True)).
  { intros t. induction l as [|[t' v] l IH]; intros s; cbn [sum_matching]; [now apply er|].
    unfold match_select, is_equal.
    eapply (eb _ _ _ (fun _ => True)).
    { eapply (eb _ _ _ (fun _ => True)); [|intros; e1].
      eapply eb; [apply e_is_equal|]. intros. now apply er. }
    intros. es. apply IH. }
  assert (TS : forall todo all, ea (type_sums F todo all) (fun _ => True)).
  { induction todo as [|[t v] todo IH]; intros all; cbn [type_sums]; [now apply er|].
    eapply eb; [apply SM|]. intros. eapply eb; [apply IH|]. intros. now apply er. }
  assert (MO : forall outs it isum isf nf fe flag, ea (match_outputs F it isum isf nf fe flag outs) (fun _ => True)).
  { induction outs0 as [|[ot os] o IH]; intros; cbn [match_outputs]; [now apply er|].
    eapply eb; [apply e_is_equal|]. intros. es. apply IH. }
  assert (PI : forall ins outs ftv fe flag, ea (per_input F ins outs ftv fe flag) (fun _ => True)).
  { induction ins0 as [|[it is] i IH]; intros; cbn [per_input]; [now apply er|].
    eapply eb; [apply e_is_equal|]. intros. es. eapply eb; [apply MO|]. intros. es. apply IH. }
  assert (TP : forall ins ot p, ea (type_product F ins ot p) (fun _ => True)).
  { induction ins0 as [|[it is] i IH]; intros; cbn [type_product]; [now apply er|]. es. apply IH. }
  assert (OC : forall outs ins, ea (outputs_covered F outs ins) (fun _ => True)).
  { induction outs0 as [|[ot os] o IH]; intros; cbn [outputs_covered]; [now apply er|].
    eapply eb; [apply TP|]. intros. es. apply IH. }
  unfold asset_mixing. eapply eb; [apply TS|]. intros. eapply eb; [apply TS|]. intros. es.
  eapply eb; [apply PI|]. intros. es. apply OC.
Qed.

(** Public values. *)
Lemma pub_values_app c c' gs w : grev c' = gs ++ grev c -> pub_values w c' = pub_values w c ++ flat_map (pub_of w) (rev gs).
Proof. intros E. unfold pub_values, gates. now rewrite E, rev_app_distr, flat_map_app. Qed.
Lemma silent_pub gs (w : nat -> F) : Forall silent gs -> flat_map (pub_of w) (rev gs) = [].
Proof.
  intros H. apply Forall_rev in H. induction H as [|g l Hg _ IH]; [reflexivity|]. cbn. rewrite IH.
  unfold pub_of. now rewrite Hg.
Qed.
(** Soundness together with what is published: [Q] holds of the result whatever
    the assignment; [R w a vs] relates the assignment, the result, and the values
    of the public inputs added. *)
Definition soundp {A} (m : CS F A) (Q : A -> Prop) (R : (nat -> F) -> A -> list F -> Prop) : Prop :=
  forall c, (2 <= nvars c)%nat -> (nvars c <= nvars (snd (m c)))%nat /\ Q (fst (m c)) /\
  forall w, sat (snd (m c)) w -> sat c w /\
  exists vs, pub_values w (snd (m c)) = pub_values w c ++ vs /\ R w (fst (m c)) vs.
Lemma sp_of K {A} (m : CS F A) Q (R : (nat -> F) -> A -> Prop) : (forall g, K g -> silent g) ->
  emits K m Q -> sound m R -> soundp m Q (fun w a vs => vs = [] /\ R w a).
Proof.
  intros HK HE HS c Hc. destruct (HE c Hc) as [gs [E1 [E2 [E3 E4]]]].
  split; [exact E3|]. split; [exact E4|]. intros w H. destruct (HS c w H) as [H1 H2].
  split; [exact H1|]. exists []. split; [|auto].
  rewrite (pub_values_app c _ gs w E1), silent_pub; [reflexivity|]. eapply Forall_impl; [|exact E2]. exact HK.
Qed.
Lemma sp_pi v : soundp (prepare_pi_variable F v) (fun _ => True) (fun w _ vs => vs = [w v]).
Proof.
  intros c Hc. cbn. split; [lia|]. split; [exact I|]. intros w H. apply (pub_sound F v) in H. destruct H as [H _].
  split; [exact H|]. exists [w v]. split; [|reflexivity]. unfold pub_values, gates. cbn. rewrite flat_map_app. reflexivity.
Qed.
Lemma spb {A B} (m : CS F A) (f : A -> CS F B) Q1 R1 Q (R : (nat -> F) -> B -> list F -> Prop) :
  soundp m Q1 R1 -> (forall a, Q1 a -> soundp (f a) Q (fun w b v2 => forall v1, R1 w a v1 -> R w b (v1 ++ v2))) ->
  soundp (bnd m f) Q R.
Proof.
  intros Hm Hf c Hc. rewrite bnd_eq. destruct (Hm c Hc) as [M1 [M2 M3]].
  destruct (Hf _ M2 (snd (m c))) as [N1 [N2 N3]]; [lia|].
  split; [lia|]. split; [exact N2|]. intros w H. destruct (N3 w H) as [H1 [v2 [H3 H4]]].
  destruct (M3 w H1) as [H5 [v1 [H7 H8]]]. split; [exact H5|]. exists (v1 ++ v2). rewrite H3, H7, app_assoc. auto.
Qed.
Lemma spr {A} (a : A) (Q : A -> Prop) (R : (nat -> F) -> A -> list F -> Prop) : Q a -> (forall w, R w a []) -> soundp (ret a) Q R.
Proof.
  intros HQ HR c Hc. cbn. split; [lia|]. split; [exact HQ|]. intros w H. split; [exact H|]. exists [].
  split; [symmetry; apply app_nil_r|auto].
Qed.
Lemma spw {A} (m : CS F A) (Q Q' : A -> Prop) (R R' : (nat -> F) -> A -> list F -> Prop) : soundp m Q R ->
  (forall a, Q a -> Q' a) -> (forall w a vs, Q a -> R w a vs -> R' w a vs) -> soundp m Q' R'.
Proof.
  intros H HQ HR c Hc. destruct (H c Hc) as [M1 [M2 M3]]. split; [exact M1|]. split; [auto|]. intros w Hs.
  destruct (M3 w Hs) as [H1 [vs [H2 H3]]]. split; [exact H1|]. exists vs. auto.
Qed.

(** Gates that may be public but avoid variable 1. *)
Definition not1 (i : nat) : Prop := i <> 1%nat.
Lemma not1_0 : not1 0. Proof. discriminate. Qed.
Lemma not1_2 i : (2 <= i)%nat -> not1 i. Proof. unfold not1. lia. Qed.
Lemma plain_avoids g : plain not1 g -> avoids_one F g.
Proof. intros [G [G1 [G2 [G3 [G4 G5]]]]]. unfold avoids_one. rewrite G. repeat split; try assumption. discriminate. Qed.
Lemma em_avoids {A} (m : CS F A) Q : emits (plain not1) m Q -> emits (avoids_one F) m Q.
Proof.
  intros H c Hc. destruct (H c Hc) as [gs [H1 [H2 [H3 H4]]]]. exists gs. repeat split; try assumption.
  eapply Forall_impl; [|exact H2]. exact plain_avoids.
Qed.
Lemma em_pi v : not1 v -> emits (avoids_one F) (prepare_pi_variable F v) (fun _ => True).
Proof. intros H. apply e_push. unfold avoids_one. cbn. unfold not1 in H. repeat split; congruence. Qed.
End Emit.
