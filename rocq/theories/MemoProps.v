(** C68: owner memos written by this and by earlier versions are read back. *)
From Coq Require Import List NArith ZArith Bool Lia ZifyBool ZifyNat ZifyN Permutation.
From Verif Require Import Base UtilsModel UtilsProps KeyModel KeyProofs SerModel SerSpec SerProofs SerProps MemoModel.
From Verif Require RecordModel.
Import ListNotations.
Local Open Scope N_scope.
Notation om_kt := RecordModel.om_kt.
Notation om_share := RecordModel.om_share.
Notation om_lock := RecordModel.om_lock.

(** ** Specification *)
Definition memo_bytes (m : omemo) : Prop := byte_string (om_share m) /\ byte_string (om_lock m).
(** One field of the memo, in its current or its earlier form. *)
Definition share_field (f : source) (e : val * val) (sh : bytes) : Prop :=
  (fst e = VStr n_share_bytes /\ read_vec (snd e) = Ok sh) \/ (fst e = VStr n_share /\ read compressed f (snd e) = Ok sh).
Definition lock_field (f : source) (e : val * val) (lk : bytes) : Prop :=
  (fst e = VStr n_lock_bytes /\ read_vec (snd e) = Ok lk) \/
  (fst e = VStr n_lock /\ exists ct eph, read_hybrid f (snd e) = Ok (ct, eph) /\ lk = eph ++ ct).
(** A map for the memo: the share, the lock and at most one key type, in any order. *)
Definition map_for (f : source) (l : list (val * val)) (m : omemo) : Prop :=
  exists s k, share_field f s (om_share m) /\ lock_field f k (om_lock m) /\
    ((Permutation l [s; k] /\ om_kt m = KEd25519) \/
     (exists t, Permutation l [(VStr n_key_type, t); s; k] /\ read_kt t = Ok (om_kt m))).

(** ** Proofs *)
Lemma once_ok {T} (o o' : option T) r : once o r = Ok o' -> o = None /\ exists t, r = Ok t /\ o' = Some t.
Proof. destruct o; [discriminate|]. destruct r; try discriminate. intros E. apply Ok_inj in E as <-. eauto. Qed.
Lemma kt_of_name k : kt_of (kt_name k) = Ok k.
Proof. now destruct k. Qed.
Lemma eqb_iff a b : bytes_eqb a b = true <-> a = b.
Proof. destruct (bytes_eqb_spec a b); split; auto; discriminate. Qed.

Definition kind_of (k : bytes) : nat :=
  if bytes_eqb k n_key_type then 1 else if bytes_eqb k n_share then 2 else if bytes_eqb k n_share_bytes then 3
  else if bytes_eqb k n_lock then 4 else if bytes_eqb k n_lock_bytes then 5 else 0.
Lemma kind_name k : match kind_of k with 1 => k = n_key_type | 2 => k = n_share | 3 => k = n_share_bytes | 4 => k = n_lock | 5 => k = n_lock_bytes | _ => True end%nat.
Proof.
  unfold kind_of. repeat match goal with |- context [bytes_eqb k ?n] => destruct (bytes_eqb_spec k n); [assumption|] end. exact I.
Qed.

(** What the loop does on a list: the entries of each sort. *)
Inductive sorted_out (f : source) : list (val * val) -> option key_type -> option bytes -> option bytes -> Prop :=
| so_nil : sorted_out f [] None None None
| so_kt v r k sh lk : read_kt v = Ok k -> sorted_out f r None sh lk -> sorted_out f ((VStr n_key_type, v) :: r) (Some k) sh lk
| so_sh e r kt b lk : share_field f e b -> sorted_out f r kt None lk -> sorted_out f (e :: r) kt (Some b) lk
| so_lk e r kt sh b : lock_field f e b -> sorted_out f r kt sh None -> sorted_out f (e :: r) kt sh (Some b).

Lemma share_step f e b r kt sh lk : share_field f e b ->
  memo_fields f (e :: r) kt sh lk = bind (once sh (Ok b)) (fun sh => memo_fields f r kt sh lk).
Proof. destruct e as [k v]. cbn [fst snd]. intros [[E H]|[E H]]; cbn [fst snd] in *; subst k; cbn [memo_fields]; now rewrite H. Qed.
Lemma lock_step f e b r kt sh lk : lock_field f e b ->
  memo_fields f (e :: r) kt sh lk = bind (once lk (Ok b)) (fun lk => memo_fields f r kt sh lk).
Proof.
  destruct e as [k v]. intros [[E H]|[E [ct [eph [H ->]]]]]; cbn [fst snd] in *; subst k; cbn [memo_fields]; now rewrite H.
Qed.
Definition join {T} (a b c : option T) : Prop := (a = None /\ b = c) \/ (b = None /\ a = c).

Lemma fields_fwd f l : forall kt sh lk kt' sh' lk', memo_fields f l kt sh lk = Ok (kt', sh', lk') ->
  exists a b c, sorted_out f l a b c /\ join kt a kt' /\ join sh b sh' /\ join lk c lk'.
Proof.
  assert (J : forall T (o : option T), join o None o) by (now right).
  induction l as [|[k v] l IH]; intros kt sh lk kt' sh' lk' E.
  - cbn in E. apply Ok_inj in E. injection E as <- <- <-. exists None, None, None. split; [constructor|]. auto.
  - destruct k as [| |k| | |]; try discriminate. cbn [memo_fields] in E.
    destruct (bytes_eqb_spec k n_key_type) as [->|N1].
    { apply bind_ok in E as [o [E1 E]]. apply once_ok in E1 as [-> [t [Ht ->]]]. destruct (IH _ _ _ _ _ _ E) as [a [b [c [S [J1 [J2 J3]]]]]].
      destruct J1 as [[? _]|[-> <-]]; [discriminate|]. exists (Some t), b, c. split; [now constructor|]. split; [now left|]. auto. }
    destruct (bytes_eqb_spec k n_share) as [->|N2].
    { apply bind_ok in E as [o [E1 E]]. apply once_ok in E1 as [-> [t [Ht ->]]]. destruct (IH _ _ _ _ _ _ E) as [a [b [c [S [J1 [J2 J3]]]]]].
      destruct J2 as [[? _]|[-> <-]]; [discriminate|]. exists a, (Some t), c. split; [apply so_sh; [now right|exact S]|]. split; [auto|]. split; [now left|auto]. }
    destruct (bytes_eqb_spec k n_share_bytes) as [->|N3].
    { apply bind_ok in E as [o [E1 E]]. apply once_ok in E1 as [-> [t [Ht ->]]]. destruct (IH _ _ _ _ _ _ E) as [a [b [c [S [J1 [J2 J3]]]]]].
      destruct J2 as [[? _]|[-> <-]]; [discriminate|]. exists a, (Some t), c. split; [apply so_sh; [now left|exact S]|]. split; [auto|]. split; [now left|auto]. }
    destruct (bytes_eqb_spec k n_lock) as [->|N4].
    { apply bind_ok in E as [o [E1 E]]. apply once_ok in E1 as [-> [t [Ht ->]]]. destruct (IH _ _ _ _ _ _ E) as [a [b [c [S [J1 [J2 J3]]]]]].
      destruct J3 as [[? _]|[-> <-]]; [discriminate|]. exists a, b, (Some t). split; [|split; [auto|split; [auto|now left]]]. apply so_lk; [|exact S].
      right. split; [reflexivity|]. cbn [snd]. destruct (read_hybrid f v) as [[ct eph]| |]; try discriminate. apply Ok_inj in Ht as <-. exists ct, eph. now split. }
    destruct (bytes_eqb_spec k n_lock_bytes) as [->|N5]; [|discriminate].
    apply bind_ok in E as [o [E1 E]]. apply once_ok in E1 as [-> [t [Ht ->]]]. destruct (IH _ _ _ _ _ _ E) as [a [b [c [S [J1 [J2 J3]]]]]].
    destruct J3 as [[? _]|[-> <-]]; [discriminate|]. exists a, b, (Some t). split; [apply so_lk; [now left|exact S]|]. split; [auto|]. split; [auto|now left].
Qed.
Lemma fields_bwd f l a b c : sorted_out f l a b c ->
  forall kt sh lk kt' sh' lk', join kt a kt' -> join sh b sh' -> join lk c lk' -> memo_fields f l kt sh lk = Ok (kt', sh', lk').
Proof.
  induction 1 as [|v r k sh0 lk0 Hk S IH|e r kt0 b lk0 He S IH|e r kt0 sh0 b He S IH]; intros kt sh lk kt' sh' lk' J1 J2 J3.
  - cbn. destruct J1 as [[-> <-]|[_ <-]], J2 as [[-> <-]|[_ <-]], J3 as [[-> <-]|[_ <-]]; reflexivity.
  - destruct J1 as [[-> <-]|[? _]]; [|discriminate]. cbn [memo_fields]. change (bytes_eqb n_key_type n_key_type) with true. cbn iota. rewrite Hk. cbn [once rmap bind].
    apply IH; auto. now right.
  - destruct J2 as [[-> <-]|[? _]]; [|discriminate]. rewrite (share_step _ _ _ _ _ _ _ He). cbn [once rmap bind]. apply IH; auto. now right.
  - destruct J3 as [[-> <-]|[? _]]; [|discriminate]. rewrite (lock_step _ _ _ _ _ _ _ He). cbn [once rmap bind]. apply IH; auto. now right.
Qed.
Definition the_kt (f : source) (o : option key_type) (l : list (val * val)) : Prop :=
  match o with None => l = [] | Some k => exists v, l = [(VStr n_key_type, v)] /\ read_kt v = Ok k end.
Definition the (P : val * val -> bytes -> Prop) (o : option bytes) (l : list (val * val)) : Prop :=
  match o with None => l = [] | Some b => exists e, l = [e] /\ P e b end.
Lemma sorted_perm f l a b c : sorted_out f l a b c <->
  exists x y z, Permutation l (x ++ y ++ z) /\ the_kt f a x /\ the (share_field f) b y /\ the (lock_field f) c z.
Proof.
  split.
  - induction 1 as [|v r k sh0 lk0 Hk S IH|e r kt0 b lk0 He S IH|e r kt0 sh0 b He S IH].
    + exists [], [], []. repeat split. constructor.
    + destruct IH as [x [y [z [P [Hx [Hy Hz]]]]]]. cbn in Hx. subst x. exists [(VStr n_key_type, v)], y, z. split; [cbn; now constructor|]. split; [now exists v|auto].
    + destruct IH as [x [y [z [P [Hx [Hy Hz]]]]]]. cbn in Hy. subst y. exists x, [e], z. split; [|split; [auto|split; [now exists e|auto]]].
      cbn [app] in *. etransitivity; [apply perm_skip; exact P|]. apply Permutation_middle.
    + destruct IH as [x [y [z [P [Hx [Hy Hz]]]]]]. cbn in Hz. subst z. exists x, y, [e]. split; [|split; [auto|split; [auto|now exists e]]].
      rewrite app_nil_r in P. rewrite app_assoc. etransitivity; [apply perm_skip; exact P|]. apply Permutation_cons_append.
  - (* any order *)
    intros [x [y [z [P [Hx [Hy Hz]]]]]]. revert a b c x y z P Hx Hy Hz. induction l as [|e l IH]; intros a b c x y z P Hx Hy Hz.
    + apply Permutation_nil in P. apply app_eq_nil in P as [-> P]. apply app_eq_nil in P as [-> ->].
      destruct a; [destruct Hx as [v [? _]]; discriminate|]. destruct b; [destruct Hy as [v [? _]]; discriminate|]. destruct c; [destruct Hz as [v [? _]]; discriminate|]. constructor.
    + assert (I : In e (x ++ y ++ z)) by (eapply Permutation_in; [exact P|now left]). rewrite !in_app_iff in I. destruct I as [I|[I|I]].
      * destruct a as [k|]; [|rewrite Hx in I; contradiction]. destruct Hx as [v [-> Hk]]. destruct I as [<-|[]]. cbn [app] in P. apply Permutation_cons_inv in P.
        constructor; [exact Hk|]. apply (IH None b c [] y z); auto. reflexivity.
      * destruct b as [k|]; [|rewrite Hy in I; contradiction]. destruct Hy as [e' [-> Hk]]. destruct I as [<-|[]]. apply so_sh; [exact Hk|]. apply (IH a None c x [] z); auto; [|reflexivity].
        cbn [app] in *. apply (Permutation_cons_inv (a := e')). etransitivity; [exact P|]. symmetry. apply Permutation_middle.
      * destruct c as [k|]; [|rewrite Hz in I; contradiction]. destruct Hz as [e' [-> Hk]]. destruct I as [<-|[]]. apply so_lk; [exact Hk|]. apply (IH a b None x y []); auto; [|reflexivity].
        rewrite app_nil_r. apply (Permutation_cons_inv (a := e')). etransitivity; [exact P|]. rewrite app_assoc. symmetry. apply Permutation_cons_append.
Qed.

(** ** Theorems *)
(** Every memo is read back from what is written for it, as a map or as a sequence, in
    both formats. *)
Theorem C68_round_trip : forall m, memo_bytes m -> forall f,
  read_memo f (memo_map m) = Ok m /\ read_memo f (memo_seq m) = Ok m.
Proof.
  intros [kt sh lk] [Bs Bl] f. cbn [om_share om_lock RecordModel.om_share RecordModel.om_lock] in *. split.
  - unfold read_memo, memo_map, memo_of_map. cbn. rewrite kt_of_name. cbn. rewrite u8s_round by exact Bs. cbn. rewrite u8s_round by exact Bl. reflexivity.
  - unfold read_memo, memo_seq, memo_of_seq, com_key_type, com_share, com_lock. cbn [RecordModel.om_kt RecordModel.om_share RecordModel.om_lock read_kt]. rewrite kt_of_name. cbn [bind].
    unfold write_vec at 1. unfold read at 1. cbn [read_bytes bind untagged]. rewrite (proj1 (C67_vectors sh Bs)). cbn [bind].
    assert (H : read_hybrid Buffered (write_vec lk) = Err).
    { unfold write_vec. destruct lk as [|x [|y [|z r]]]; reflexivity. }
    rewrite H. cbn [rmap untagged]. rewrite (proj1 (C67_vectors lk Bl)). reflexivity.
Qed.
(** The map read as a memo is exactly a map for it: one share, one lock, at most one key
    type (Ed25519 when there is none), nothing else, in any order. *)
Theorem C68_maps_read : forall f l m, read_memo f (VMap l) = Ok m <-> map_for f l m.
Proof.
  intros f l [kt sh lk]. unfold map_for. cbn [read_memo om_kt om_share om_lock RecordModel.om_kt RecordModel.om_share RecordModel.om_lock]. unfold memo_of_map. split.
  - intros E. apply bind_ok in E as [[[k' s'] l'] [E1 E]]. apply bind_ok in E as [s [E2 E]]. apply bind_ok in E as [q [E3 E]]. injection E as E4 -> ->.
    destruct s' as [s'|]; [|discriminate]. destruct l' as [l'|]; [|discriminate]. apply Ok_inj in E2 as ->. apply Ok_inj in E3 as ->.
    apply fields_fwd in E1 as [a [b [c [S [J1 [J2 J3]]]]]].
    assert (Ea : a = k') by (destruct J1 as [[_ ?]|[-> <-]]; auto). assert (Eb : b = Some sh) by (destruct J2 as [[_ ?]|[-> ?]]; [auto|discriminate]). assert (Ec : c = Some lk) by (destruct J3 as [[_ ?]|[-> ?]]; [auto|discriminate]).
    subst a b c. apply sorted_perm in S as [x [y [z [P [Hx [[e [-> He]] [g [-> Hg]]]]]]]]. exists e, g. split; [exact He|]. split; [exact Hg|].
    destruct k' as [k|]; cbn in Hx.
    + right. destruct Hx as [v [-> Hv]]. exists v. split; [exact P|]. now rewrite <- E4.
    + left. subst x. split; [exact P|]. now rewrite <- E4.
  - intros [s [k [Hs [Hk [[P ->]|[t [P Ht]]]]]]].
    + rewrite (fields_bwd f l None (Some sh) (Some lk)) with (kt' := None) (sh' := Some sh) (lk' := Some lk); [reflexivity| |now left|now left|now left].
      apply sorted_perm. exists [], [s], [k]. split; [exact P|]. split; [reflexivity|]. split; [now exists s|now exists k].
    + rewrite (fields_bwd f l (Some kt) (Some sh) (Some lk)) with (kt' := Some kt) (sh' := Some sh) (lk' := Some lk); [reflexivity| |now left|now left|now left].
      apply sorted_perm. exists [(VStr n_key_type, t)], [s], [k]. split; [exact P|]. split; [now exists t|]. split; [now exists s|now exists k].
Qed.
(** The order of the fields does not matter. *)
Theorem C68_field_order : forall f l l' m, Permutation l l' -> read_memo f (VMap l) = Ok m -> read_memo f (VMap l') = Ok m.
Proof.
  intros f l l' m P H. apply C68_maps_read in H as [s [k [Hs [Hk H]]]]. apply C68_maps_read. exists s, k. split; [exact Hs|]. split; [exact Hk|].
  destruct H as [[Q E]|[t [Q E]]]; [left|right; exists t]; (split; [|exact E]); (etransitivity; [symmetry; exact P|exact Q]).
Qed.
(** The memos of earlier versions, a compressed point and a hybrid ciphertext without key
    type, become Ed25519 memos whose lock is the encoding of that ciphertext. *)
Theorem C68_earlier_maps : forall f share ct eph, f = Json \/ f = Msgpack -> bytes_of 32 share -> byte_string ct -> bytes_of 32 eph ->
  let m := mkOm KEd25519 share (eph ++ ct) in
  read_memo f (VMap [(VStr n_share, write compressed f share); (VStr n_lock, hybrid_map f ct eph)]) = Ok m /\
  read_memo f (VMap [(VStr n_share, write compressed f share); (VStr n_lock, hybrid_seq f ct eph)]) = Ok m /\
  dec hybrid (om_lock m) = Ok (ct, eph).
Proof.
  intros f share ct eph Hf Hs Hc He m.
  assert (F1 : read compressed f (write compressed f share) = Ok share).
  { refine (proj1 (C67_formats _ compressed (bytes_of 32) _ f Hf) share Hs). intros x [B L]. split; [exact B|]. cbn. now rewrite L. }
  assert (F2 : read ctext f (write ctext f ct) = Ok ct).
  { refine (proj1 (C67_formats _ ctext byte_string _ f Hf) ct Hc). intros x B. split; [exact B|]. reflexivity. }
  assert (F3 : read exact32 f (write exact32 f eph) = Ok eph).
  { refine (proj1 (C67_formats _ exact32 (bytes_of 32) _ f Hf) eph He). intros x [B L]. split; [exact B|]. cbn. now rewrite L. }
  assert (S : share_field f (VStr n_share, write compressed f share) share) by (right; split; [reflexivity|exact F1]).
  split; [|split].
  - apply C68_maps_read. exists (VStr n_share, write compressed f share), (VStr n_lock, hybrid_map f ct eph). split; [exact S|]. split; [|left; split; [apply Permutation_refl|reflexivity]].
    right. split; [reflexivity|]. exists ct, eph. split; [|reflexivity]. cbn [snd]. unfold hybrid_map, read_hybrid. cbn [hybrid_fields].
    change (bytes_eqb n_ciphertext n_ciphertext) with true. change (bytes_eqb n_ephemeral n_ciphertext) with false. change (bytes_eqb n_ephemeral n_ephemeral) with true. cbn iota. rewrite F2. cbn [once rmap bind]. rewrite F3. reflexivity.
  - apply C68_maps_read. exists (VStr n_share, write compressed f share), (VStr n_lock, hybrid_seq f ct eph). split; [exact S|]. split; [|left; split; [apply Permutation_refl|reflexivity]].
    right. split; [reflexivity|]. exists ct, eph. split; [|reflexivity]. cbn [snd]. unfold hybrid_seq, read_hybrid. rewrite F2. cbn [bind]. rewrite F3. reflexivity.
  - destruct He as [_ L]. cbn [om_lock RecordModel.om_lock m]. cbn [hybrid dec exact32 ctext]. rewrite app_length, L. replace (Nat.ltb (32 + length ct) 32) with false by (symmetry; apply Nat.ltb_ge; lia).
    destruct (take 32 eph ct L) as [-> ->]. rewrite L. reflexivity.
Qed.
(** As a sequence, the memo of an earlier version is refused: its first element, the share,
    stands where the key type is expected.  It is read when a unit value stands before. *)
Theorem C68_earlier_sequences_refuted : forall share ct eph, bytes_of 32 share -> byte_string ct -> bytes_of 32 eph ->
  read_memo Msgpack (VSeq [write compressed Msgpack share; hybrid_seq Msgpack ct eph]) = Err /\
  read_memo Msgpack (VSeq [VUnit; write compressed Msgpack share; hybrid_seq Msgpack ct eph]) = Ok (mkOm KEd25519 share (eph ++ ct)).
Proof.
  intros share ct eph [Bs Ls] Hc [Be Le]. split; [reflexivity|].
  unfold read_memo, memo_of_seq, com_key_type, com_share, com_lock, write, hybrid_seq. cbn [bind human read_hybrid enc compressed ctext exact32 write].
  unfold read. cbn [read_bytes bind dec compressed ctext exact32]. rewrite Ls, Le. reflexivity.
Qed.

(** Reading can panic, in both formats and both shapes: the share of an earlier version
    with another length than 32 bytes. *)
Theorem C68_malformed_share_panics_refuted : forall b lock, byte_string b -> length b <> 32%nat ->
  (forall f r, f = Json \/ f = Msgpack -> read_memo f (VMap ((VStr n_share, write compressed f b) :: r)) = Panic) /\
  read_memo Json (VSeq [VUnit; VStr (b64enc b); lock]) = Panic /\ read_memo Msgpack (VSeq [VUnit; VBytes b; lock]) = Panic.
Proof.
  intros b lock B L. apply Nat.eqb_neq in L. split; [|split].
  - intros f r Hf. unfold read_memo, memo_of_map. cbn [memo_fields]. change (bytes_eqb n_share n_key_type) with false. change (bytes_eqb n_share n_share) with true. cbn iota.
    destruct Hf as [-> | ->]; unfold read, write; cbn [human read_bytes]; cbn [enc compressed]; rewrite ?b64_round by exact B; cbn [bind dec enc compressed]; rewrite L; reflexivity.
  - unfold read_memo, memo_of_seq, com_key_type, com_share, read. cbn [bind read_bytes]. rewrite b64_round by exact B. cbn [bind dec compressed]. rewrite L. reflexivity.
  - unfold read_memo, memo_of_seq, com_key_type, com_share, read. cbn [bind read_bytes dec compressed]. rewrite L. reflexivity.
Qed.

Lemma read_np {A} (c : codec A) f v : total c -> read c f v <> Panic.
Proof. intros T. unfold read. pose proof (read_bytes_no_panic f v) as H. destruct (read_bytes f v); [apply T|discriminate|contradiction]. Qed.
Lemma bind_np {A B} (r : res A) (g : A -> res B) : r <> Panic -> (forall x, r = Ok x -> g x <> Panic) -> bind r g <> Panic.
Proof. intros H K. destruct r; [now apply K|discriminate|contradiction]. Qed.
Lemma once_np {T} (o : option T) r : r <> Panic -> once o r <> Panic.
Proof. destruct o; [discriminate|]. destruct r; [discriminate|discriminate|contradiction]. Qed.
Lemma vec_np v : read_vec v <> Panic.
Proof. destruct v; try discriminate. apply u8s_no_panic. Qed.
Lemma need_np {T} (o : option T) : need o <> Panic.
Proof. now destruct o. Qed.
Lemma kt_np v : read_kt v <> Panic.
Proof.
  assert (K : forall t, kt_of t <> Panic) by (intros t; unfold kt_of; repeat (destruct (bytes_eqb t _)); discriminate).
  destruct v as [| |t| | |[|[[| |t| | |] [| | | | |]] [|]]]; cbn; try discriminate; apply K.
Qed.
Lemma exact_total : total exact32.
Proof. intros b. cbn [exact32 dec]. destruct (Nat.eqb (length b) 32); discriminate. Qed.
Lemma ctext_total : total ctext. Proof. discriminate. Qed.
Lemma hybrid_np f v : read_hybrid f v <> Panic.
Proof.
  assert (H : forall l ct eph, hybrid_fields f l ct eph <> Panic).
  { induction l as [|[k v'] l IH]; intros ct eph; [discriminate|]. destruct k; try discriminate. cbn [hybrid_fields]. destruct (bytes_eqb t n_ciphertext); [apply bind_np; [apply once_np, read_np, ctext_total|intros; apply IH]|].
    destruct (bytes_eqb t n_ephemeral); [apply bind_np; [apply once_np, read_np, exact_total|intros; apply IH]|apply IH]. }
  destruct v as [| | | |[|c [|e [|]]]|l]; try discriminate.
  - cbn [read_hybrid]. apply bind_np; [apply read_np, ctext_total|]. intros. apply bind_np; [apply read_np, exact_total|discriminate].
  - cbn [read_hybrid]. apply bind_np; [apply H|]. intros. apply bind_np; [apply need_np|]. intros. apply bind_np; [apply need_np|discriminate].
Qed.
Lemma rmap_np {A B} (g : A -> B) r : r <> Panic -> rmap g r <> Panic.
Proof. destruct r; [discriminate|discriminate|contradiction]. Qed.

(** It cannot panic otherwise: a map without a field of the earlier share, and a sequence
    whose second element is neither a text nor a byte string, are read or refused.  Missing:
    the case above. *)
Theorem C68_no_panic_partial : forall f,
  (forall l, ~ In (VStr n_share) (map fst l) -> read_memo f (VMap l) <> Panic) /\
  (forall l, (forall t b, nth_error l 1 <> Some (VStr t) /\ nth_error l 1 <> Some (VBytes b)) -> read_memo f (VSeq l) <> Panic) /\
  (forall v, (forall l, v <> VMap l) -> (forall l, v <> VSeq l) -> read_memo f v = Err).
Proof.
  intros f. split; [|split].
  - intros l H. cbn [read_memo]. unfold memo_of_map. apply bind_np.
    + assert (G : forall kt sh lk, memo_fields f l kt sh lk <> Panic); [|apply G]. induction l as [|[k v] l IH]; intros kt sh lk; [discriminate|].
      destruct k; try discriminate. cbn [map fst In] in H. cbn [memo_fields].
      assert (IH' : forall kt sh lk, memo_fields f l kt sh lk <> Panic) by (intros; apply IH; intros I; apply H; now right).
      destruct (bytes_eqb t n_key_type); [apply bind_np; [apply once_np, kt_np|intros; apply IH']|].
      destruct (bytes_eqb_spec t n_share) as [->|]; [exfalso; apply H; now left|].
      destruct (bytes_eqb t n_share_bytes); [apply bind_np; [apply once_np, vec_np|intros; apply IH']|].
      destruct (bytes_eqb t n_lock); [apply bind_np; [apply once_np, rmap_np, hybrid_np|intros; apply IH']|].
      destruct (bytes_eqb t n_lock_bytes); [apply bind_np; [apply once_np, vec_np|intros; apply IH']|discriminate].
    + intros [[kt sh] lk] _. apply bind_np; [apply need_np|]. intros. apply bind_np; [apply need_np|discriminate].
  - intros l H. cbn [read_memo]. assert (K : forall v, com_key_type v <> Panic) by (intros v; destruct v; try discriminate; apply kt_np).
    assert (S : forall v, (forall t b, v <> VStr t /\ v <> VBytes b) -> com_share v <> Panic).
    { intros v N. unfold com_share, read. destruct v; cbn [read_bytes bind untagged]; try discriminate; try apply vec_np; exfalso; [eapply (proj1 (N t []))|eapply (proj2 (N [] b))]; reflexivity. }
    assert (Lk : forall v, com_lock v <> Panic).
    { intros v. unfold com_lock. pose proof (rmap_np (enc hybrid) _ (hybrid_np Buffered v)) as N. destruct (rmap (enc hybrid) (read_hybrid Buffered v)); [discriminate|apply vec_np|contradiction]. }
    destruct l as [|a [|b [|c r]]]; [discriminate| | |]; cbn [memo_of_seq].
    + apply bind_np; [apply K|discriminate].
    + apply bind_np; [apply K|]. intros. apply bind_np; [|discriminate]. apply S. intros t b'. destruct (H t b') as [H1 H2]. cbn in H1, H2. split; intros ->; [now apply H1|now apply H2].
    + apply bind_np; [apply K|]. intros. apply bind_np; [|intros; apply bind_np; [apply Lk|destruct r; discriminate]]. apply S. intros t b'. destruct (H t b') as [H1 H2]. cbn in H1, H2. split; intros ->; [now apply H1|now apply H2].
  - intros v H1 H2. destruct v; try reflexivity; exfalso; [now apply (H2 l)|now apply (H1 l)].
Qed.

Print Assumptions C68_round_trip.
Print Assumptions C68_maps_read.
Print Assumptions C68_field_order.
Print Assumptions C68_earlier_maps.
Print Assumptions C68_earlier_sequences_refuted.
Print Assumptions C68_malformed_share_panics_refuted.
Print Assumptions C68_no_panic_partial.

(** ** Examples *)
Import String.
Notation length := List.length (only parsing).
(** The memo of api/tests/smoke_xfr_compatibility.rs, read from its JSON map. *)
Example C68_case_stored : exists m,
  read_memo Json (VMap [(VStr (chars "blind_share"), VStr (chars "DCwxC8OMKdoUrkH5upcMzEFrRtgx_QmNapPfYsoQzis="));
    (VStr (chars "lock"), VMap [(VStr (chars "ciphertext"), VStr (chars "B2krDhuxQYASoGUHQAtB0iUH2x8GwtwPxrhTEr1M7QWSq9E2xdURHg=="));
                                (VStr (chars "ephemeral_public_key"), VStr (chars "YTQHBbPb8J8CS-2wDMl1adLrF_PWQYZ6nN9hsGwzUFk="))])]) = Ok m /\
  om_kt m = KEd25519 /\ length (om_share m) = 32%nat /\ length (om_lock m) = 72%nat /\ memo_bytes m.
Proof.
  eexists. split; [vm_compute; reflexivity|]. split; [reflexivity|]. split; [reflexivity|]. split; [reflexivity|].
  split; unfold byte_string; cbn; repeat (constructor; [reflexivity|]); constructor.
Qed.
Example C68_case_fields :
  let sh := (VStr (chars "blind_share_bytes"), VSeq [VNum 1; VNum 255]) in let lk := (VStr (chars "lock_bytes"), VSeq []) in
  read_memo Json (VMap [lk; (VStr (chars "key_type"), VStr (chars "Secp256k1")); sh]) = Ok (mkOm KSecp256k1 [1; 255] []) /\
  read_memo Json (VMap [lk; sh; lk]) = Err /\ read_memo Json (VMap [sh]) = Err /\ read_memo Json (VMap [sh; lk; (VStr (chars "memo"), VUnit)]) = Err.
Proof. repeat split. Qed.
