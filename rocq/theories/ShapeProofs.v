(** The gates, wires and public positions a gadget adds do not depend on the values
    it is given. *)
From Coq Require Import List ZArith NArith Bool Lia ZifyBool ZifyNat ZifyN.
From Verif Require Import Base Field PField Power UtilsModel TurboModel RescueModel MixModel AxfrModel NoteModel FoldModel SimModel AfoldModel.
Import ListNotations.

Section Shape.
Context (F : PField).
Local Open Scope F_scope.

(** Two systems that differ in their witnesses only. *)
Definition alike (c c' : tcs F) : Prop := grev c = grev c' /\ nvars c = nvars c'.
Definition sh {A} (m m' : CS F A) (R : A -> A -> Prop) : Prop :=
  forall c c', alike c c' -> alike (snd (m c)) (snd (m' c')) /\ R (fst (m c)) (fst (m' c')).

Lemma sh_bind {A B} (m m' : CS F A) (f f' : A -> CS F B) R R' :
  sh m m' R -> (forall a a', R a a' -> sh (f a) (f' a') R') -> sh (bnd m f) (bnd m' f') R'.
Proof.
  intros Hm Hf c c' E. unfold bnd. destruct (Hm c c' E) as [G H].
  destruct (m c) as [a d], (m' c') as [a' d']. now apply Hf.
Qed.
Lemma sh_ret {A} (a a' : A) (R : A -> A -> Prop) : R a a' -> sh (ret a) (ret a') R.
Proof. intros H c c' E. now split. Qed.
Lemma sh_new v v' : sh (new_variable F v) (new_variable F v') eq.
Proof. intros c c' [E1 E2]. unfold new_variable, alike. cbn. now rewrite E1, E2. Qed.
Lemma sh_push g : sh (push_gate F g) (push_gate F g) eq.
Proof. intros c c' [E1 E2]. unfold push_gate, alike. cbn. now rewrite E1, E2. Qed.
Lemma sh_peek v : sh (peek F v) (peek F v) (fun _ _ => True).
Proof. intros c c' E. now split. Qed.
(** A gadget whose code reads the witness first. *)
Lemma sh_read {A X} (g g' : tcs F -> X) (m m' : X -> CS F A) R : (forall x x', sh (m x) (m' x') R) ->
  sh (fun s => m (g s) s) (fun s => m' (g' s) s) R.
Proof. intros H c c' E. now apply H. Qed.
Lemma sh_new_push {X} (g g' : tcs F -> F) (row : nat -> gate F) (k : nat -> X) (R : X -> X -> Prop) : (forall x, R x x) ->
  sh (fun s => bnd (new_variable F (g s)) (fun o => bnd (push_gate F (row o)) (fun _ => ret (k o))) s)
     (fun s => bnd (new_variable F (g' s)) (fun o => bnd (push_gate F (row o)) (fun _ => ret (k o))) s) R.
Proof.
  intro HR. intros c c' [E1 E2]. unfold bnd, new_variable, push_gate, ret, alike. cbn. rewrite E1, E2. auto.
Qed.
Lemma sh_attach : sh (attach_boolean F) (attach_boolean F) eq.
Proof.
  intros c c' [E1 E2]. unfold attach_boolean, alike. cbn [fst snd]. rewrite E1.
  destruct (grev c') eqn:E3; cbn [grev nvars snd]; rewrite ?E1, ?E2, ?E3; auto.
Qed.
Lemma sh_lc a b c d k1 k2 k3 k4 : sh (linear_combine F a b c d k1 k2 k3 k4) (linear_combine F a b c d k1 k2 k3 k4) eq.
Proof. apply (sh_new_push _ _ (fun o => lc_row F a b c d o k1 k2 k3 k4) (fun o => o)). reflexivity. Qed.
Lemma sh_add a b : sh (add F a b) (add F a b) eq.
Proof. apply (sh_new_push _ _ (fun o => lc_row F a b 0 0 o 1 1 0 0) (fun o => o)). reflexivity. Qed.
Lemma sh_sub a b : sh (sub F a b) (sub F a b) eq.
Proof. apply (sh_new_push _ _ (fun o => lc_row F a b 0 0 o 1 (- (1)) 0 0) (fun o => o)). reflexivity. Qed.
Lemma sh_mul a b : sh (mul F a b) (mul F a b) eq.
Proof. apply (sh_new_push _ _ (fun o => mul_row F a b o) (fun o => o)). reflexivity. Qed.
Lemma sh_select a b e : sh (select F a b e) (select F a b e) eq.
Proof. apply (sh_new_push _ _ (fun o => select_row F a b e o) (fun o => o)). reflexivity. Qed.
Lemma sh_equal a b : sh (equal F a b) (equal F a b) eq.
Proof. apply sh_push. Qed.
Lemma sh_iseq a b : sh (is_equal_or_not_equal F a b) (is_equal_or_not_equal F a b) eq.
Proof.
  eapply sh_bind; [apply sh_sub|]. intros d ? <-. eapply sh_bind; [apply sh_peek|]. intros x x' _.
  eapply sh_bind; [apply sh_new|]. intros i ? <-. eapply sh_bind; [apply sh_mul|]. intros m ? <-.
  eapply sh_bind; [apply sh_sub|]. intros q ? <-. eapply sh_bind; [apply sh_push|]. intros ? ? _. now apply sh_ret.
Qed.
Lemma sh_news vs : forall vs', length vs = length vs' -> sh (new_variables F vs) (new_variables F vs') eq.
Proof.
  induction vs as [|v vs IH]; intros [|v' vs'] L; try discriminate; [now apply sh_ret|].
  cbn [new_variables]. eapply sh_bind; [apply sh_new|]. intros i ? <-.
  eapply sh_bind; [apply IH; now apply eq_add_S|]. intros l ? <-. now apply sh_ret.
Qed.
Lemma sh_range_loop m : forall acc top, sh (range_loop F m acc top) (range_loop F m acc top) eq.
Proof.
  induction m as [|m IH]; intros acc top; [now apply sh_ret|].
  cbn [range_loop]. destruct top as [|a [|b [|e top]]]; try now apply sh_ret.
  eapply sh_bind; [apply sh_lc|]. intros i ? <-. eapply sh_bind; [apply sh_attach|]. intros u ? <-. apply IH.
Qed.
Lemma sh_range v n : sh (range_check F v n) (range_check F v n) eq.
Proof.
  intros c c' E. unfold range_check. cbv zeta. revert c c' E.
  cut (forall z z', sh
    (bnd (new_variables F (map (bit F z) (seq 0 n))) (fun b => match rev b with
      | [] => ret b
      | top :: rest => bnd (insert_boolean_gate F top) (fun _ => bnd (range_loop F ((n - 2) / 3) top rest) (fun r =>
        bnd (match snd r with
           | [b0] => insert_lc_gate F (fst r) b0 0 0 v (fofZ 2) (fofZ 1) 0 0
           | [b1; b0] => insert_lc_gate F (fst r) b1 b0 0 v (fofZ 4) (fofZ 2) (fofZ 1) 0
           | b2 :: b1 :: b0 :: _ => insert_lc_gate F (fst r) b2 b1 b0 v (fofZ 8) (fofZ 4) (fofZ 2) (fofZ 1)
           | [] => insert_lc_gate F (fst r) 0 0 0 v (fofZ 8) (fofZ 4) (fofZ 2) (fofZ 1)
           end) (fun _ => bnd (attach_boolean F) (fun _ => ret b)))) end))
    (bnd (new_variables F (map (bit F z') (seq 0 n))) (fun b => match rev b with
      | [] => ret b
      | top :: rest => bnd (insert_boolean_gate F top) (fun _ => bnd (range_loop F ((n - 2) / 3) top rest) (fun r =>
        bnd (match snd r with
           | [b0] => insert_lc_gate F (fst r) b0 0 0 v (fofZ 2) (fofZ 1) 0 0
           | [b1; b0] => insert_lc_gate F (fst r) b1 b0 0 v (fofZ 4) (fofZ 2) (fofZ 1) 0
           | b2 :: b1 :: b0 :: _ => insert_lc_gate F (fst r) b2 b1 b0 v (fofZ 8) (fofZ 4) (fofZ 2) (fofZ 1)
           | [] => insert_lc_gate F (fst r) 0 0 0 v (fofZ 8) (fofZ 4) (fofZ 2) (fofZ 1)
           end) (fun _ => bnd (attach_boolean F) (fun _ => ret b)))) end)) eq).
  { intros H c c' E. apply (H (toZ (val c v)) (toZ (val c' v)) c c' E). }
  intros z z'. eapply sh_bind; [apply sh_news; now rewrite !map_length|]. intros b ? <-.
  destruct (rev b) as [|top rest]; [now apply sh_ret|].
  eapply sh_bind; [apply sh_push|]. intros u ? _. eapply sh_bind; [apply sh_range_loop|]. intros r ? <-.
  eapply sh_bind. { destruct (snd r) as [|? [|? [|]]]; apply sh_push. }
  intros u' ? _. eapply sh_bind; [apply sh_attach|]. intros ? ? _. now apply sh_ret.
Qed.
(** Loops. *)
Lemma sh_mapM {A A' B} (f : A -> CS F B) (f' : A' -> CS F B) Q (R : B -> B -> Prop) l l' :
  Forall2 Q l l' -> (forall a a', Q a a' -> sh (f a) (f' a') R) ->
  forall c c', alike c c' -> alike (snd (RescueModel.mapM F f l c)) (snd (RescueModel.mapM F f' l' c')) /\
    Forall2 R (fst (RescueModel.mapM F f l c)) (fst (RescueModel.mapM F f' l' c')).
Proof.
  intros HQ Hf. induction HQ as [|a a' l l' H _ IH]; intros c c' E; [split; [exact E|constructor]|].
  cbn [RescueModel.mapM]. unfold bnd. destruct (Hf a a' H c c' E) as [E1 R1].
  destruct (f a c) as [b d], (f' a' c') as [b' d']. cbn [fst snd] in *.
  destruct (IH d d' E1) as [E2 R2].
  destruct (RescueModel.mapM F f l d) as [r x], (RescueModel.mapM F f' l' d') as [r' x']. cbn [fst snd] in *.
  unfold ret. cbn [fst snd]. split; [exact E2|]. now constructor.
Qed.
Lemma Forall2_refl {A} (R : A -> A -> Prop) l : (forall a, R a a) -> Forall2 R l l.
Proof. intro H. induction l; constructor; auto. Qed.
Lemma Forall2_eq {A} (l l' : list A) : Forall2 eq l l' -> l = l'.
Proof. induction 1; congruence. Qed.
Lemma sh_map {A A' B} (f : A -> CS F B) (f' : A' -> CS F B) Q l l' :
  Forall2 Q l l' -> (forall a a', Q a a' -> sh (f a) (f' a') eq) ->
  sh (RescueModel.mapM F f l) (RescueModel.mapM F f' l') eq.
Proof.
  intros HQ Hf c c' E. destruct (sh_mapM f f' Q eq l l' HQ Hf c c' E) as [E1 H]. split; [exact E1|]. now apply Forall2_eq.
Qed.
Lemma sh_map1 {A B} (f f' : A -> CS F B) l : (forall a, sh (f a) (f' a) eq) ->
  sh (RescueModel.mapM F f l) (RescueModel.mapM F f' l) eq.
Proof. intro H. apply (sh_map _ _ eq); [now apply Forall2_refl|]. now intros a ? <-. Qed.
Lemma sh_foldM {A A' B} (f : B -> A -> CS F B) (f' : B -> A' -> CS F B) Q l l' :
  Forall2 Q l l' -> (forall b a a', Q a a' -> sh (f b a) (f' b a') eq) ->
  forall b, sh (foldM F f b l) (foldM F f' b l') eq.
Proof.
  intros HQ Hf. induction HQ as [|a a' l l' H _ IH]; intro b; [now apply sh_ret|].
  cbn [foldM]. eapply sh_bind; [apply Hf, H|]. intros b' ? <-. apply IH.
Qed.

(** ** Rescue *)
Section Hash.
Context (P : rescue_instance F) (e : N).
Lemma sh_addc v k : sh (add_constant F v k) (add_constant F v k) eq.
Proof. apply (sh_new_push _ _ (fun o => addc_row F v k o) (fun o => o)). reflexivity. Qed.
Lemma sh_lin vs m k : sh (add_linear_op_constraint F vs m k) (add_linear_op_constraint F vs m k) eq.
Proof. apply (sh_new_push _ _ (fun o => lin_row F vs m k o) (fun o => o)). reflexivity. Qed.
Lemma sh_nonlin vs m k : sh (add_non_linear_op_constraint F vs m k) (add_non_linear_op_constraint F vs m k) eq.
Proof. apply (sh_new_push _ _ (fun o => nonlin_row F vs m k o) (fun o => o)). reflexivity. Qed.
Lemma sh_pow v : sh (add_pow_5_inv_constraint F e v) (add_pow_5_inv_constraint F e v) eq.
Proof. apply (sh_new_push _ _ (fun o => pow5inv_row F v o) (fun o => o)). reflexivity. Qed.
Lemma sh_hash_loop keys : forall r vs, sh (hash_loop F P e keys r vs) (hash_loop F P e keys r vs) eq.
Proof.
  induction keys as [|k keys IH]; intros r vs; [now apply sh_ret|]. cbn [hash_loop]. eapply sh_bind.
  - destruct (Nat.even r).
    + eapply sh_bind; [apply sh_map1; intro; apply sh_pow|]. intros l ? <-. apply sh_map1. intro; apply sh_lin.
    + apply sh_map1. intro; apply sh_nonlin.
  - intros l ? <-. apply IH.
Qed.
Lemma sh_rescue vs : sh (rescue_hash F P e vs) (rescue_hash F P e vs) eq.
Proof.
  unfold rescue_hash. cbv zeta. eapply sh_bind; [apply sh_map1; intro; apply sh_addc|]. intros l ? <-. apply sh_hash_loop.
Qed.
Lemma sh_hash a b c d : sh (hash_cs F P e a b c d) (hash_cs F P e a b c d) eq.
Proof. eapply sh_bind; [apply sh_rescue|]. intros l ? <-. now apply sh_ret. Qed.
Lemma sh_commit b a t pk : sh (commit_in_cs F P e b a t pk) (commit_in_cs F P e b a t pk) eq.
Proof. destruct pk as [[p0 p1] p2]. eapply sh_bind; [apply sh_hash|]. intros l ? <-. apply sh_hash. Qed.
Lemma sh_nullify sk u t pk : sh (nullify_in_cs F P e sk u t pk) (nullify_in_cs F P e sk u t pk) eq.
Proof. destruct pk as [[p0 p1] p2]. eapply sh_bind; [apply sh_hash|]. intros l ? <-. apply sh_hash. Qed.

(** ** Merkle paths *)
Lemma sh_node n n' : sh (new_node F n) (new_node F n') eq.
Proof.
  unfold new_node. eapply sh_bind; [apply sh_new|]. intros a ? <-. eapply sh_bind; [apply sh_new|]. intros b ? <-.
  eapply sh_bind; [apply sh_new|]. intros c ? <-. eapply sh_bind; [apply sh_new|]. intros d ? <-. now apply sh_ret.
Qed.
Lemma sh_boolean ns : sh (boolean_nodes F ns) (boolean_nodes F ns) eq.
Proof.
  induction ns as [|n ns IH]; [now apply sh_ret|]. cbn [boolean_nodes].
  eapply sh_bind; [apply sh_push|]. intros ? ? _. eapply sh_bind; [apply sh_push|]. intros ? ? _.
  eapply sh_bind; [apply sh_add|]. intros s ? <-. eapply sh_bind; [apply sh_push|]. intros ? ? _. exact IH.
Qed.
Lemma Forall2_lengths {A B} (l : list A) : forall (l' : list B), length l = length l' -> Forall2 (fun _ _ => True) l l'.
Proof. induction l as [|a l IH]; intros [|b l'] L; try discriminate; constructor; [exact I|]. apply IH. now apply eq_add_S. Qed.
Lemma sh_path l l' : length l = length l' -> sh (add_merkle_path_variables F l) (add_merkle_path_variables F l') eq.
Proof.
  intro L. eapply sh_bind. { apply (sh_map _ _ (fun _ _ => True)); [now apply Forall2_lengths|]. intros; apply sh_node. }
  intros ns ? <-. eapply sh_bind; [apply sh_boolean|]. intros ? ? _. now apply sh_ret.
Qed.
Lemma sh_sort n a b l r : sh (sort F n a b l r) (sort F n a b l r) eq.
Proof.
  eapply sh_bind; [apply sh_select|]. intros x ? <-. eapply sh_bind; [apply sh_select|]. intros y ? <-.
  eapply sh_bind; [apply sh_add|]. intros s ? <-. eapply sh_bind; [apply sh_lc|]. intros m ? <-. now apply sh_ret.
Qed.
Lemma sh_merkle path : forall n, sh (merkle_loop F P e n path) (merkle_loop F P e n path) eq.
Proof.
  induction path as [|p path IH]; intro n; [now apply sh_ret|]. cbn [merkle_loop].
  eapply sh_bind; [apply sh_sort|]. intros s ? <-. eapply sh_bind; [apply sh_hash|]. intros h ? <-. apply IH.
Qed.
Lemma sh_root u c path : sh (compute_merkle_root_variables F P e u c path) (compute_merkle_root_variables F P e u c path) eq.
Proof. eapply sh_bind; [apply sh_hash|]. intros h ? <-. apply sh_merkle. Qed.

(** ** Records *)
Definition payer_like (p p' : payer_w F) : Prop := length (p_path F p) = length (p_path F p').
Lemma sh_payer p p' : payer_like p p' -> sh (add_payer F p) (add_payer F p') eq.
Proof.
  intro L. unfold add_payer. do 3 (eapply sh_bind; [apply sh_new|]; intros ? ? <-).
  eapply sh_bind; [apply sh_path, L|]. intros ? ? <-. eapply sh_bind; [apply sh_new|]. intros ? ? <-. now apply sh_ret.
Qed.
Lemma sh_new_pk k k' : sh (new_pk F k) (new_pk F k') eq.
Proof.
  destruct k as [[a b] c], k' as [[a' b'] c']. unfold new_pk. do 3 (eapply sh_bind; [apply sh_new|]; intros ? ? <-). now apply sh_ret.
Qed.
Lemma sh_new_sk k k' : sh (new_sk F k) (new_sk F k') eq.
Proof. unfold new_sk. do 2 (eapply sh_bind; [apply sh_new|]; intros ? ? <-). now apply sh_ret. Qed.
Lemma sh_payee q q' : sh (add_payee F q) (add_payee F q') eq.
Proof.
  unfold add_payee. do 3 (eapply sh_bind; [apply sh_new|]; intros ? ? <-).
  eapply sh_bind; [apply sh_new_pk|]. intros ? ? <-. now apply sh_ret.
Qed.
Lemma sh_payer_cs pk sk r p : sh (payer_cs F P e pk sk r p) (payer_cs F P e pk sk r p) eq.
Proof.
  unfold payer_cs. eapply sh_bind; [apply sh_commit|]. intros ? ? <-. eapply sh_bind; [apply sh_lc|]. intros ? ? <-.
  eapply sh_bind; [apply sh_nullify|]. intros ? ? <-. eapply sh_bind; [apply sh_root|]. intros ? ? <-.
  eapply sh_bind; [apply sh_range|]. intros ? ? <-. eapply sh_bind.
  { destruct r; [|now apply sh_ret]. eapply sh_bind; [apply sh_equal|]. intros ? ? _. now apply sh_ret. }
  intros ? ? <-. eapply sh_bind; [apply sh_push|]. intros ? ? _. now apply sh_ret.
Qed.
Lemma sh_payee_cs u q : sh (payee_cs F P e u q) (payee_cs F P e u q) eq.
Proof.
  unfold payee_cs. eapply sh_bind; [apply sh_commit|]. intros ? ? <-. eapply sh_bind; [apply sh_range|]. intros ? ? <-. apply sh_push.
Qed.
Lemma sh_records folding folding' ps ps' qs qs' k k' fee fee' :
  Forall2 payer_like ps ps' -> length qs = length qs' ->
  (forall pk sk, sh (folding pk sk) (folding' pk sk) eq) ->
  sh (xfr_records F P e folding ps qs k fee) (xfr_records F P e folding' ps' qs' k' fee') eq.
Proof.
  intros HP LQ HF. unfold xfr_records.
  eapply sh_bind; [apply (sh_map _ _ payer_like _ _ HP); intros; now apply sh_payer|]. intros pv ? <-.
  eapply sh_bind; [apply (sh_map _ _ (fun _ _ => True)); [now apply Forall2_lengths|]; intros; apply sh_payee|]. intros qv ? <-.
  eapply sh_bind; [apply sh_new_pk|]. intros pk ? <-. eapply sh_bind; [apply sh_new_sk|]. intros sk ? <-.
  eapply sh_bind; [apply (sh_foldM _ _ eq); [now apply Forall2_refl|]; intros ? ? ? <-; apply sh_payer_cs|]. intros r ? <-. cbv zeta.
  eapply sh_bind; [apply sh_push|]. intros ? ? _.
  eapply sh_bind; [apply (sh_foldM _ _ eq); [now apply Forall2_refl|]; intros ? ? ? <-; apply sh_payee_cs|]. intros ? ? _.
  eapply sh_bind; [apply sh_new|]. intros fv ? <-. eapply sh_bind; [apply sh_push|]. intros ? ? _.
  eapply sh_bind; [apply HF|]. intros ? ? _. now apply sh_ret.
Qed.

(** ** Asset mixing *)
Lemma sh_sums t l : forall s, sh (sum_matching F t l s) (sum_matching F t l s) eq.
Proof.
  induction l as [|[t' v] l IH]; intro s; [now apply sh_ret|]. cbn [sum_matching]. eapply sh_bind.
  { unfold match_select, is_equal. eapply sh_bind; [|intros ? ? <-; apply sh_mul].
    eapply sh_bind; [apply sh_iseq|]. intros ? ? <-. now apply (sh_ret _ _ eq). }
  intros ? ? <-. eapply sh_bind; [apply sh_add|]. intros ? ? <-. apply IH.
Qed.
Lemma sh_type_sums l all : sh (type_sums F l all) (type_sums F l all) eq.
Proof.
  induction l as [|[t v] l IH]; [now apply sh_ret|]. cbn [type_sums]. eapply sh_bind; [apply sh_sums|]. intros ? ? <-.
  eapply sh_bind; [exact IH|]. intros ? ? <-. now apply sh_ret.
Qed.
Ltac gadget := eapply sh_bind; [first [apply sh_iseq|apply sh_mul|apply sh_sub|apply sh_push]|]; intros ? ? <-.
Lemma sh_outputs it is_ f nf fee outs : forall flag,
  sh (match_outputs F it is_ f nf fee flag outs) (match_outputs F it is_ f nf fee flag outs) eq.
Proof.
  induction outs as [|[ot os] outs IH]; intro flag; [now apply sh_ret|]. cbn [match_outputs]. do 8 gadget. apply IH.
Qed.
Lemma sh_per_input outs ftv fee ins : forall flag, sh (per_input F ins outs ftv fee flag) (per_input F ins outs ftv fee flag) eq.
Proof.
  induction ins as [|[it is_] ins IH]; intro flag; [now apply sh_ret|]. cbn [per_input]. do 2 gadget.
  eapply sh_bind; [apply sh_outputs|]. intros ? ? <-. do 4 gadget. apply IH.
Qed.
Lemma sh_product ot ins : forall p, sh (type_product F ins ot p) (type_product F ins ot p) eq.
Proof. induction ins as [|[it ?] ins IH]; intro p; [now apply sh_ret|]. cbn [type_product]. do 2 gadget. apply IH. Qed.
Lemma sh_covered ins outs : sh (outputs_covered F outs ins) (outputs_covered F outs ins) eq.
Proof.
  induction outs as [|[ot ?] outs IH]; [now apply sh_ret|]. cbn [outputs_covered]. eapply sh_bind; [apply sh_product|]. intros ? ? <-.
  gadget. exact IH.
Qed.
Lemma sh_mixing ins outs ft fv : sh (asset_mixing F ins outs ft fv) (asset_mixing F ins outs ft fv) eq.
Proof.
  unfold asset_mixing. eapply sh_bind; [apply sh_type_sums|]. intros ? ? <-. eapply sh_bind; [apply sh_type_sums|]. intros ? ? <-.
  eapply sh_bind; [apply sh_new|]. intros ? ? <-. gadget. eapply sh_bind; [apply sh_per_input|]. intros ? ? <-. gadget. apply sh_covered.
Qed.
Lemma sh_xfr folding folding' ps ps' qs qs' k k' fee fee' ft :
  Forall2 payer_like ps ps' -> length qs = length qs' ->
  (forall pk sk, sh (folding pk sk) (folding' pk sk) eq) ->
  sh (xfr_cs F P e folding ps qs k fee ft) (xfr_cs F P e folding' ps' qs' k' fee' ft) eq.
Proof.
  intros HP LQ HF. unfold xfr_cs. eapply sh_bind; [now apply sh_records|]. intros ly ? <-.
  eapply sh_bind; [apply sh_mixing|]. intros ? ? _. now apply sh_ret.
Qed.
Lemma sh_shield q q' : sh (shield_cs F P e q) (shield_cs F P e q') eq.
Proof.
  unfold shield_cs. eapply sh_bind; [apply sh_new|]. intros ? ? <-. gadget. eapply sh_bind; [apply sh_new|]. intros ? ? <-. gadget.
  eapply sh_bind; [apply sh_new|]. intros ? ? <-. eapply sh_bind; [apply sh_new_pk|]. intros ? ? <-.
  eapply sh_bind; [apply sh_commit|]. intros ? ? <-. apply sh_push.
Qed.
Lemma sh_unshield folding folding' p p' k k' : payer_like p p' ->
  (forall pk sk, sh (folding pk sk) (folding' pk sk) eq) ->
  sh (unshield_cs F P e folding p k) (unshield_cs F P e folding' p' k') eq.
Proof.
  intros HP HF. unfold unshield_cs. eapply sh_bind; [apply sh_payer, HP|]. intros ? ? <-.
  eapply sh_bind; [apply sh_new_pk|]. intros ? ? <-. eapply sh_bind; [apply sh_new_sk|]. intros ? ? <-.
  eapply sh_bind; [apply sh_commit|]. intros ? ? <-. eapply sh_bind; [apply sh_lc|]. intros ? ? <-.
  eapply sh_bind; [apply sh_nullify|]. intros ? ? <-. eapply sh_bind; [apply sh_root|]. intros ? ? <-.
  do 4 gadget. apply HF.
Qed.
End Hash.
End Shape.
