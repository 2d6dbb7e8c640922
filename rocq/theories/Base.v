(** Shared vocabulary of the models. *)
From Coq Require Import List NArith ZArith Lia.
Import ListNotations.

(** The outcome of a modelled Rust function: [Ok], a returned [Err], or a panic
    (slice out of range, failed assertion, arithmetic overflow). *)
Inductive res (T : Type) : Type :=
| Ok (t : T)
| Err
| Panic.
Arguments Ok {T} t.
Arguments Err {T}.
Arguments Panic {T}.

(** The [?] operator. *)
Definition bind {T U : Type} (r : res T) (f : T -> res U) : res U :=
  match r with Ok t => f t | Err => Err | Panic => Panic end.

Definition rmap {T U : Type} (f : T -> U) (r : res T) : res U :=
  match r with Ok t => Ok (f t) | Err => Err | Panic => Panic end.

Declare Scope res_scope.
Delimit Scope res_scope with res.
Notation "'do' x <- e ; f" := (bind e (fun x => f))
  (at level 200, x name, e at level 100, f at level 200) : res_scope.

(** [iter().map(f).collect::<Result<Vec<_>>>()]: the first failure wins. *)
Fixpoint mapM {T U : Type} (f : T -> res U) (l : list T) : res (list U) :=
  match l with
  | [] => Ok []
  | x :: l' => bind (f x) (fun y => rmap (cons y) (mapM f l'))
  end.

Lemma mapM_ok {T U} (f : T -> res U) l ys :
  mapM f l = Ok ys <-> Forall2 (fun x y => f x = Ok y) l ys.
Proof.
  revert ys; induction l as [|x l IH]; intros ys; cbn.
  - split; intros H; [injection H as <-; constructor | inversion H; reflexivity].
  - destruct (f x) as [y| |] eqn:Hf; cbn.
    + destruct (mapM f l) as [zs| |] eqn:Hm; cbn.
      * split; intros H.
        -- injection H as <-. constructor; [exact Hf|]. apply IH; reflexivity.
        -- inversion H as [|? y' ? zs' Hy Hzs]; subst. apply IH in Hzs.
           rewrite Hf in Hy; congruence.
      * split; intros H; [discriminate|]. inversion H as [|? y' ? zs' Hy Hzs]; subst.
        apply IH in Hzs; discriminate.
      * split; intros H; [discriminate|]. inversion H as [|? y' ? zs' Hy Hzs]; subst.
        apply IH in Hzs; discriminate.
    + split; intros H; [discriminate|]. inversion H; congruence.
    + split; intros H; [discriminate|]. inversion H; congruence.
Qed.

(** Big-endian encoding of a number in [n] bytes ([u64::to_be_bytes] for n = 8). *)
Fixpoint be_bytes (n : nat) (x : N) : list N :=
  match n with
  | O => []
  | S n' => be_bytes n' (x / 256) ++ [(x mod 256)%N]
  end.

(** Value of a big-endian byte string ([u64::from_be_bytes]). *)
Definition be_value (bs : list N) : N := fold_left (fun acc b => acc * 256 + b)%N bs 0%N.

Lemma be_value_app bs b : be_value (bs ++ [b]) = (be_value bs * 256 + b)%N.
Proof. unfold be_value. rewrite fold_left_app. reflexivity. Qed.

Lemma be_bytes_length n x : length (be_bytes n x) = n.
Proof.
  revert x; induction n as [|n IH]; intros x; cbn [be_bytes]; [reflexivity|].
  rewrite app_length, IH; cbn; lia.
Qed.

Lemma be_value_bytes n x : (x < 256 ^ N.of_nat n)%N -> be_value (be_bytes n x) = x.
Proof.
  revert x; induction n as [|n IH]; intros x Hx.
  - cbn in *. lia.
  - cbn [be_bytes]. rewrite be_value_app, IH.
    + rewrite N.mul_comm. symmetry. apply N.div_mod. lia.
    + apply N.div_lt_upper_bound; [lia|].
      rewrite Nat2N.inj_succ, N.pow_succ_r' in Hx. exact Hx.
Qed.

Lemma be_bytes_inj n x y :
  (x < 256 ^ N.of_nat n)%N -> (y < 256 ^ N.of_nat n)%N ->
  be_bytes n x = be_bytes n y -> x = y.
Proof.
  intros Hx Hy H. rewrite <- (be_value_bytes n x Hx), <- (be_value_bytes n y Hy), H.
  reflexivity.
Qed.

(** Equality test of byte strings. *)
Fixpoint bytes_eqb (a b : list N) : bool :=
  match a, b with
  | [], [] => true
  | x :: a', y :: b' => N.eqb x y && bytes_eqb a' b'
  | _, _ => false
  end.

Lemma bytes_eqb_spec a b : Bool.reflect (a = b) (bytes_eqb a b).
Proof.
  revert b; induction a as [|x a IH]; intros [|y b]; cbn; try (constructor; congruence).
  destruct (N.eqb_spec x y) as [->|Hn]; cbn; [|constructor; congruence].
  destruct (IH b) as [->|Hn]; constructor; congruence.
Qed.

(** List helpers. *)
Lemma Forall2_len {A B} (R : A -> B -> Prop) l m : Forall2 R l m -> length l = length m.
Proof. induction 1; cbn; congruence. Qed.

Lemma Forall2_nth {A B} (R : A -> B -> Prop) l m :
  Forall2 R l m -> forall i a b, nth_error l i = Some a -> nth_error m i = Some b -> R a b.
Proof.
  induction 1 as [|x y l m Hxy H IH]; intros [|i] a b Ha Hb; cbn in *; try discriminate.
  - congruence.
  - eauto.
Qed.

Lemma Forall2_impl {A B} (R S : A -> B -> Prop) l m :
  (forall a b, R a b -> S a b) -> Forall2 R l m -> Forall2 S l m.
Proof. intros H. induction 1; constructor; auto. Qed.

Lemma Forall2_in_l {A B} (R : A -> B -> Prop) l m a :
  Forall2 R l m -> In a l -> exists b, In b m /\ R a b.
Proof.
  induction 1 as [|x y l m Hxy H IH]; intros Hi; [destruct Hi|].
  destruct Hi as [->|Hi]; [exists y; split; [now left|assumption]|].
  destruct (IH Hi) as [b [Hb HR]]. exists b. split; [now right|assumption].
Qed.

Lemma Forall2_in_r {A B} (R : A -> B -> Prop) l m b :
  Forall2 R l m -> In b m -> exists a, In a l /\ R a b.
Proof.
  induction 1 as [|x y l m Hxy H IH]; intros Hi; [destruct Hi|].
  destruct Hi as [->|Hi]; [exists x; split; [now left|assumption]|].
  destruct (IH Hi) as [a [Ha HR]]. exists a. split; [now right|assumption].
Qed.

Lemma bind_ok {T U} (r : res T) (f : T -> res U) u :
  bind r f = Ok u <-> exists t, r = Ok t /\ f t = Ok u.
Proof.
  destruct r as [t| |]; cbn; split; try discriminate.
  - intros H. exists t. auto.
  - intros [t' [H1 H2]]. injection H1 as <-. exact H2.
  - intros [t' [H1 H2]]. discriminate.
  - intros [t' [H1 H2]]. discriminate.
Qed.

Lemma rmap_ok {T U} (f : T -> U) (r : res T) u :
  rmap f r = Ok u <-> exists t, r = Ok t /\ f t = u.
Proof.
  destruct r as [t| |]; cbn; split; try discriminate.
  - intros H. injection H as <-. exists t. auto.
  - intros [t' [H1 <-]]. injection H1 as <-. reflexivity.
  - intros [t' [H1 H2]]. discriminate.
  - intros [t' [H1 H2]]. discriminate.
Qed.

Lemma Ok_inj {T} (a b : T) : Ok a = Ok b -> a = b.
Proof. congruence. Qed.
