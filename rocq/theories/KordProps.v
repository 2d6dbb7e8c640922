(** C74: keys can be sorted and used as keys of maps. *)
From Coq Require Import List NArith Bool Lia.
From Verif Require Import Base UtilsModel NoteModel KeyModel HybModel KeySpec KeyProofs KeyProps KordModel.
Import ListNotations.
Local Open Scope N_scope.

(** What ordered and hashed maps need of the type of their keys (the contracts of
    [Eq], [Ord], [PartialOrd] and [Hash] in the Rust standard library). *)
Record lawful {T} (wf : T -> Prop) (eq : T -> T -> bool) (cmp : T -> T -> comparison) (pcmp : T -> T -> option comparison)
  (hash : T -> list bytes -> list bytes) : Prop := {
  eq_sound : forall j k, wf j -> wf k -> (eq j k = true <-> j = k);
  cmp_eq : forall j k, wf j -> wf k -> (cmp j k = Eq <-> j = k);
  cmp_opp : forall j k, cmp k j = CompOpp (cmp j k);
  cmp_trans : forall i j k, cmp i j = Lt -> cmp j k = Lt -> cmp i k = Lt;
  cmp_partial : forall j k, pcmp j k = Some (cmp j k);
  hash_eq : forall j k s, eq j k = true -> hash j s = hash k s;
  (* and no two different keys write the same bytes *)
  hash_inj : forall j k s, wf j -> wf k -> hash j s = hash k s -> j = k }.

Lemma cmp_eq_iff a : forall b, bytes_cmp a b = Eq <-> a = b.
Proof.
  induction a as [|x a IH]; intros [|y b]; cbn; try (split; [discriminate|discriminate]); [tauto|].
  destruct (N.compare_spec x y) as [->|L|L].
  - rewrite IH. split; [now intros ->|intros E; now injection E].
  - split; [discriminate|]. intros E. injection E as -> _. lia.
  - split; [discriminate|]. intros E. injection E as -> _. lia.
Qed.
Lemma cmp_opp_bytes a : forall b, bytes_cmp b a = CompOpp (bytes_cmp a b).
Proof. induction a as [|x a IH]; intros [|y b]; cbn; try reflexivity. rewrite N.compare_antisym. destruct (N.compare x y); cbn; [apply IH|reflexivity..]. Qed.
Lemma cmp_trans_bytes a : forall b c, bytes_cmp a b = Lt -> bytes_cmp b c = Lt -> bytes_cmp a c = Lt.
Proof.
  induction a as [|x a IH]; intros [|y b] [|z c]; cbn; try discriminate; auto.
  destruct (N.compare_spec x y) as [->|L|L]; try discriminate.
  - destruct (N.compare_spec y z); try discriminate; auto. apply IH.
  - intros _. destruct (N.compare_spec y z) as [->|M|M]; try discriminate; destruct (N.compare_spec x z); auto; lia.
Qed.
Lemma lawful_bytes {T} (wf : T -> Prop) (ser : T -> bytes) : (forall j k, wf j -> wf k -> ser j = ser k -> j = k) ->
  lawful wf (fun j k => bytes_eqb (ser j) (ser k)) (fun j k => bytes_cmp (ser j) (ser k)) (fun j k => Some (bytes_cmp (ser j) (ser k))) (fun k s => s ++ [ser k]).
Proof.
  intros I. split.
  - intros j k Wj Wk. destruct (bytes_eqb_spec (ser j) (ser k)) as [E|N]; split; auto; [discriminate|]. intros ->. contradiction.
  - intros j k Wj Wk. rewrite cmp_eq_iff. split; [now apply I|now intros ->].
  - intros. apply cmp_opp_bytes.
  - intros i j k. apply cmp_trans_bytes.
  - reflexivity.
  - intros j k s. destruct (bytes_eqb_spec (ser j) (ser k)) as [->|]; [reflexivity|discriminate].
  - intros j k s Wj Wk E. apply app_inv_head in E. injection E as E. now apply I.
Qed.

Section Keys.
Context (X : schemes) (HX : schemes_ok X).
(** Public keys: equality is equality of keys, the order is total and strict, and the
    hash agrees with equality and separates different keys. *)
Theorem C74_public_keys_are_lawful : lawful (@pk_wf X) (pk_eq X) (pk_cmp X) (pk_partial_cmp X) (pk_hash X).
Proof. apply (lawful_bytes (@pk_wf X) (pk_to_bytes X)). intros j k Wj Wk E. now apply (C47_equality_is_of_keys X HX j k Wj Wk). Qed.
(** Secret keys likewise. *)
Theorem C74_secret_keys_are_lawful : lawful (fun _ => True) (sk_eq X) (sk_cmp X) (sk_partial_cmp X) (sk_hash X).
Proof.
  apply (lawful_bytes (fun _ => True) (sk_to_bytes X)). intros j k _ _ E.
  destruct (C47_round_trips X HX) as [_ [R _]]. destruct (R j) as [_ [Rj _]]. destruct (R k) as [_ [Rk _]]. rewrite E, Rk in Rj. now injection Rj.
Qed.
(** The order of the keys is the lexicographic one of their encodings, in which
    multi-signatures are sorted, and it separates the kinds: Ed25519 before Secp256k1
    before addresses. *)
Theorem C74_order_is_the_signing_order :
  (forall j k : pubkey X, bytes_leb (pk_to_bytes X j) (pk_to_bytes X k) = true <-> pk_cmp X j k <> Gt) /\
  (forall j k : seckey X, bytes_leb (sk_to_bytes X j) (sk_to_bytes X k) = true <-> sk_cmp X j k <> Gt) /\
  (forall a b h, pk_cmp X (@PkEd X a) (@PkSecp X b) = Lt /\ pk_cmp X (@PkSecp X b) (@PkAddr X h) = Lt) /\
  (forall a b c, sk_cmp X (@SkEd X a) (@SkSecp X b) = Lt /\ sk_cmp X (@SkSecp X b) (@SkAddr X c) = Lt).
Proof.
  assert (K : forall a b, bytes_leb a b = true <-> bytes_cmp a b <> Gt).
  { clear. intros a. induction a as [|x a IH]; intros [|y b]; cbn; try (split; congruence).
    destruct (N.compare_spec x y) as [->|L|L].
    + rewrite N.ltb_irrefl. apply IH.
    + apply N.ltb_lt in L. rewrite L. split; congruence.
    + pose proof (proj2 (N.ltb_lt _ _) L) as L'. rewrite L'. destruct (N.ltb_spec x y); [lia|]. split; [discriminate|congruence]. }
  split; [intros; apply K|]. split; [intros; apply K|]. split; split; reflexivity.
Qed.
End Keys.
Print Assumptions C74_public_keys_are_lawful.
Print Assumptions C74_secret_keys_are_lawful.
Print Assumptions C74_order_is_the_signing_order.

(** The toy library of KeyProps: two different keys of one kind, and their order. *)
Example C74_case :
  lawful (@pk_wf toy) (pk_eq toy) (pk_cmp toy) (pk_partial_cmp toy) (pk_hash toy) /\
  pk_cmp toy (@PkEd toy true) (@PkEd toy false) <> Eq /\ pk_cmp toy (@PkEd toy true) (@PkEd toy true) = Eq /\
  pk_wf (@PkAddr toy (repeat 9 20)) /\ pk_cmp toy (@PkAddr toy (repeat 9 20)) (@PkSecp toy true) = Gt.
Proof. split; [apply C74_public_keys_are_lawful, toy_ok|]. repeat split; vm_compute; congruence. Qed.
