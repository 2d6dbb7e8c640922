(** Proofs about keys, signatures and multi-signatures. *)
From Coq Require Import List NArith ZArith Bool Lia ZifyBool ZifyNat ZifyN Permutation Sorted.
From Verif Require Import Base UtilsModel NoteModel KeyModel HybModel KeySpec.
Import ListNotations.
Local Open Scope N_scope.

Lemma opt_ok {T U} (f : T -> U) o u : opt f o = Ok u <-> exists t, o = Some t /\ u = f t.
Proof.
  destruct o as [t|]; cbn; split.
  - intros H. exists t. split; [reflexivity|]. apply Ok_inj in H. congruence.
  - intros [t' [E ->]]. congruence.
  - discriminate.
  - intros [t' [E _]]. discriminate.
Qed.
Lemma kt_cases t : (t = 1 /\ kt_from_byte t = KSecp256k1) \/ (t = 2 /\ kt_from_byte t = KAddress) \/ (t <> 1 /\ t <> 2 /\ kt_from_byte t = KEd25519).
Proof.
  unfold kt_from_byte. destruct (N.eqb_spec t 0); [right; right; split; [lia|split; [lia|reflexivity]]|]. destruct (N.eqb_spec t 1); [left; auto|].
  destruct (N.eqb_spec t 2); [right; left; auto|]. right. right. auto.
Qed.
Lemma split_last {T} n (l : list T) d : length l = S n -> l = firstn n l ++ [nth n l d].
Proof.
  revert l. induction n as [|n IH]; intros [|a l] H; try discriminate; cbn in H.
  - destruct l; [reflexivity|discriminate].
  - cbn. f_equal. apply IH. lia.
Qed.
Lemma firstn_app_len {T} n (a b : list T) : length a = n -> firstn n (a ++ b) = a.
Proof. intros <-. rewrite firstn_app, firstn_all, Nat.sub_diag. apply app_nil_r. Qed.
Lemma skipn_app_len {T} n (a b : list T) : length a = n -> skipn n (a ++ b) = b.
Proof. intros <-. rewrite skipn_app, skipn_all, Nat.sub_diag. reflexivity. Qed.
Lemma nth_app_len {T} n (a b : list T) d : length a = n -> nth n (a ++ b) d = nth 0 b d.
Proof. intros <-. rewrite app_nth2 by lia. now rewrite Nat.sub_diag. Qed.

Section Keys.
Context (X : schemes) (HX : schemes_ok X).
Let He : codec 32 (epk_bytes X) (epk_parse X) := proj1 HX.
Let Hs : codec 33 (spk_ser X) (spk_parse X) := proj1 (proj2 HX).
Let Hes : codec 32 (esk_bytes X) (esk_parse X) := proj1 (proj2 (proj2 HX)).
Let Hss : codec 32 (ssk_ser X) (ssk_parse X) := proj1 (proj2 (proj2 (proj2 HX))).
Let Heg : codec 64 (esig_bytes X) (esig_parse X) := proj1 (proj2 (proj2 (proj2 (proj2 HX)))).
Let Hsg : codec 64 (ssig_ser X) (ssig_parse X) := proj1 (proj2 (proj2 (proj2 (proj2 (proj2 HX))))).

Lemma pk_from_bytes_iff b k : pk_from_bytes X b = Ok k <-> pk_string k b.
Proof.
  unfold pk_from_bytes. split.
  - destruct (Nat.eqb_spec (length b) 32) as [E|_].
    { intros H. apply opt_ok in H. destruct H as [pk [E1 ->]]. apply He in E1. subst b. constructor. }
    destruct (Nat.eqb_spec (length b) 34) as [E|]; [cbn [negb]|cbn; discriminate].
    destruct b as [|t r]; [discriminate|]. cbn [hd skipn length] in *. intros H. injection E as Er.
    destruct (kt_cases t) as [[-> K]|[[-> K]|[N1 [N2 K]]]]; rewrite K in H.
    + apply opt_ok in H. destruct H as [pk [E1 ->]]. apply Hs in E1. subst r. constructor.
    + apply Ok_inj in H. subst k. rewrite <- (firstn_skipn 20 r) at 2. constructor; [rewrite firstn_length|rewrite skipn_length]; lia.
    + apply opt_ok in H. destruct H as [pk [E1 ->]]. apply He in E1. rewrite (split_last 32 r 0 Er), E1. now constructor.
  - intros [pk|t pk x N1 N2|pk|h rest L1 L2].
    + rewrite (proj1 (proj1 He pk)). cbn [Nat.eqb]. apply opt_ok. exists pk. split; [apply He|reflexivity].
    + pose proof (proj1 (proj1 He pk)) as L. cbn [length hd skipn]. rewrite app_length, L. cbn [length Nat.add Nat.eqb negb].
      destruct (kt_cases t) as [[-> K]|[[-> K]|[_ [_ K]]]]; try contradiction. rewrite K, (firstn_app_len _ _ _ L).
      apply opt_ok. exists pk. split; [apply He|reflexivity].
    + cbn [length hd skipn]. rewrite (proj1 (proj1 Hs pk)). cbn [Nat.eqb negb]. change (kt_from_byte 1) with KSecp256k1. cbv iota.
      apply opt_ok. exists pk. split; [apply Hs|reflexivity].
    + cbn [length hd skipn]. rewrite app_length, L1, L2. cbn [Nat.add Nat.eqb negb]. change (kt_from_byte 2) with KAddress. cbv iota.
      now rewrite (firstn_app_len _ _ _ L1).
Qed.
Lemma sk_from_bytes_iff b k : sk_from_bytes X b = Ok k <-> sk_string k b.
Proof.
  unfold sk_from_bytes. split.
  - destruct (Nat.eqb_spec (length b) 32) as [E|_].
    { intros H. apply opt_ok in H. destruct H as [pk [E1 ->]]. apply Hes in E1. subst b. constructor. }
    destruct (Nat.eqb_spec (length b) 33) as [E|]; [cbn [negb]|cbn; discriminate].
    destruct b as [|t r]; [discriminate|]. cbn [hd skipn length] in *. intros H.
    destruct (kt_cases t) as [[-> K]|[[-> K]|[N1 [N2 K]]]]; rewrite K in H; apply opt_ok in H; destruct H as [pk [E1 ->]].
    + apply Hss in E1. subst r. constructor.
    + apply Hss in E1. subst r. constructor.
    + apply Hes in E1. subst r. now constructor.
  - intros [pk|t pk N1 N2|pk|pk].
    + rewrite (proj1 (proj1 Hes pk)). cbn [Nat.eqb]. apply opt_ok. exists pk. split; [apply Hes|reflexivity].
    + cbn [length hd skipn]. rewrite (proj1 (proj1 Hes pk)). cbn [Nat.eqb negb].
      destruct (kt_cases t) as [[-> K]|[[-> K]|[_ [_ K]]]]; try contradiction. rewrite K. apply opt_ok. exists pk. split; [apply Hes|reflexivity].
    + cbn [length hd skipn]. rewrite (proj1 (proj1 Hss pk)). cbn [Nat.eqb negb]. change (kt_from_byte 1) with KSecp256k1. cbv iota.
      apply opt_ok. exists pk. split; [apply Hss|reflexivity].
    + cbn [length hd skipn]. rewrite (proj1 (proj1 Hss pk)). cbn [Nat.eqb negb]. change (kt_from_byte 2) with KAddress. cbv iota.
      apply opt_ok. exists pk. split; [apply Hss|reflexivity].
Qed.
Lemma rec_iff b r : rec_parse b = Some r <-> b = r /\ r < 4.
Proof.
  unfold rec_parse. destruct (N.ltb_spec b 4); split; try discriminate.
  - intros E. injection E as ->. auto.
  - intros [-> _]. reflexivity.
  - lia.
Qed.
Lemma sig_from_bytes_iff b s : sig_from_bytes X b = Ok s <-> sig_string s b.
Proof.
  unfold sig_from_bytes. split.
  - destruct (Nat.eqb_spec (length b) 64) as [E|_].
    { intros H. apply opt_ok in H. destruct H as [pk [E1 ->]]. apply Heg in E1. subst b. constructor. }
    destruct (Nat.eqb_spec (length b) 66) as [E|]; [cbn [negb]|cbn; discriminate].
    destruct b as [|t r]; [discriminate|]. cbn [hd skipn length nth] in *. intros H. injection E as Er.
    destruct (kt_cases t) as [[-> K]|[[-> K]|[N1 [N2 K]]]]; rewrite K in H.
    + apply bind_ok in H. destruct H as [g [G H]]. apply opt_ok in G. destruct G as [g' [G ->]]. apply Hsg in G.
      apply opt_ok in H. destruct H as [q [Q ->]]. apply rec_iff in Q. rewrite (split_last 64 r 0 Er), G, (proj1 Q). now constructor.
    + apply bind_ok in H. destruct H as [g [G H]]. apply opt_ok in G. destruct G as [g' [G ->]]. apply Hsg in G.
      apply opt_ok in H. destruct H as [q [Q ->]]. apply rec_iff in Q. rewrite (split_last 64 r 0 Er), G, (proj1 Q). now constructor.
    + apply opt_ok in H. destruct H as [pk [E1 ->]]. apply Heg in E1. rewrite (split_last 64 r 0 Er), E1. now constructor.
  - intros [g|t g x N1 N2|g q Q|g q Q].
    + rewrite (proj1 (proj1 Heg g)). cbn [Nat.eqb]. apply opt_ok. exists g. split; [apply Heg|reflexivity].
    + pose proof (proj1 (proj1 Heg g)) as L. cbn [length hd skipn]. rewrite app_length, L. cbn [length Nat.add Nat.eqb negb].
      destruct (kt_cases t) as [[-> K]|[[-> K]|[_ [_ K]]]]; try contradiction. rewrite K, (firstn_app_len _ _ _ L).
      apply opt_ok. exists g. split; [apply Heg|reflexivity].
    + pose proof (proj1 (proj1 Hsg g)) as L. cbn [length hd skipn]. rewrite app_length, L. cbn [length Nat.add Nat.eqb negb].
      change (kt_from_byte 1) with KSecp256k1. cbv iota. rewrite (firstn_app_len _ _ _ L), (proj2 (proj1 Hsg g)). cbn [opt bind].
      change (nth 65 (1 :: ssig_ser X g ++ [q]) 0) with (nth 64 (ssig_ser X g ++ [q]) 0). rewrite (nth_app_len _ _ _ _ L).
      apply opt_ok. exists q. split; [apply rec_iff; auto|reflexivity].
    + pose proof (proj1 (proj1 Hsg g)) as L. cbn [length hd skipn]. rewrite app_length, L. cbn [length Nat.add Nat.eqb negb].
      change (kt_from_byte 2) with KAddress. cbv iota. rewrite (firstn_app_len _ _ _ L), (proj2 (proj1 Hsg g)). cbn [opt bind].
      change (nth 65 (2 :: ssig_ser X g ++ [q]) 0) with (nth 64 (ssig_ser X g ++ [q]) 0). rewrite (nth_app_len _ _ _ _ L).
      apply opt_ok. exists q. split; [apply rec_iff; auto|reflexivity].
Qed.

Lemma pk_to_string k : pk_wf k -> pk_string k (pk_to_bytes X k).
Proof. destruct k as [pk|pk|h]; cbn; intros W; constructor; auto; discriminate. Qed.
Lemma sk_to_string k : sk_string k (sk_to_bytes X k).
Proof. destruct k as [sk|sk|sk]; cbn; constructor; discriminate. Qed.
Lemma sig_to_string s : sig_wf s -> sig_string s (sig_to_bytes X s).
Proof. destruct s as [s|s r|s r]; cbn; intros W; constructor; auto; discriminate. Qed.

Lemma pk_strict_unique k b : pk_string k b -> pk_strict b -> b = pk_to_bytes X k.
Proof.
  intros [pk|t pk x N1 N2|pk|h rest L1 L2] [L P]; cbn [pk_to_bytes kt_to_byte hd length] in *.
  - rewrite (proj1 (proj1 He pk)) in L. discriminate.
  - destruct P as [[E1 E2]|[E1|[E1 _]]]; try contradiction. subst t. f_equal. f_equal. cbn [nth] in E2.
    rewrite (nth_app_len _ _ _ _ (proj1 (proj1 He pk))) in E2. cbn in E2. now subst.
  - reflexivity.
  - destruct P as [[E1 _]|[E1|[_ E2]]]; try discriminate. f_equal. f_equal. change (skipn 21 (2 :: h ++ rest)) with (skipn 20 (h ++ rest)) in E2. now rewrite (skipn_app_len _ _ _ L1) in E2.
Qed.
Lemma sk_strict_unique k b : sk_string k b -> sk_strict b -> b = sk_to_bytes X k.
Proof.
  intros [sk|t sk N1 N2|sk|sk] [L P]; cbn [sk_to_bytes kt_to_byte hd length] in *; try reflexivity.
  - rewrite (proj1 (proj1 Hes sk)) in L. discriminate.
  - f_equal. lia.
Qed.
Lemma sig_strict_unique k b : sig_string k b -> sig_strict b -> b = sig_to_bytes X k.
Proof.
  intros [s|t s x N1 N2|s r R|s r R] [L P]; cbn [sig_to_bytes kt_to_byte hd length] in *; try reflexivity.
  - rewrite (proj1 (proj1 Heg s)) in L. discriminate.
  - destruct P as [[E1 E2]|[E1|E1]]; try contradiction. subst t. f_equal. f_equal. cbn [nth] in E2.
    rewrite (nth_app_len _ _ _ _ (proj1 (proj1 Heg s))) in E2. cbn in E2. now subst.
Qed.
Lemma pk_bytes_inj j k : pk_wf j -> pk_wf k -> pk_to_bytes X j = pk_to_bytes X k -> j = k.
Proof.
  intros Wj Wk E. apply pk_to_string in Wj, Wk. apply pk_from_bytes_iff in Wj, Wk. rewrite E in Wj. rewrite Wj in Wk. now apply Ok_inj in Wk.
Qed.

(** ** Multi-signatures *)
Lemma leb_total a : forall b, bytes_leb a b = true \/ bytes_leb b a = true.
Proof.
  induction a as [|x a IH]; intros [|y b]; cbn; auto.
  destruct (N.ltb_spec x y), (N.ltb_spec y x); auto.
Qed.
Lemma leb_antisym a : forall b, bytes_leb a b = true -> bytes_leb b a = true -> a = b.
Proof.
  induction a as [|x a IH]; intros [|y b]; cbn; try discriminate; auto.
  destruct (N.ltb_spec x y), (N.ltb_spec y x); try discriminate; try lia. intros H1 H2. f_equal; [lia|now apply IH].
Qed.
Lemma leb_trans a : forall b c, bytes_leb a b = true -> bytes_leb b c = true -> bytes_leb a c = true.
Proof.
  induction a as [|x a IH]; intros [|y b] [|z c]; cbn; try discriminate; auto.
  destruct (N.ltb_spec x y), (N.ltb_spec y x), (N.ltb_spec y z), (N.ltb_spec z y), (N.ltb_spec x z), (N.ltb_spec z x);
    try discriminate; try lia; auto. apply IH.
Qed.
Lemma leb_refl a : bytes_leb a a = true.
Proof. destruct (leb_total a a); assumption. Qed.

Lemma sorted_unique (l m : list bytes) :
  StronglySorted (fun x y => bytes_leb x y = true) l -> StronglySorted (fun x y => bytes_leb x y = true) m -> Permutation l m -> l = m.
Proof.
  intros Sl. revert m. induction Sl as [|a l Sl IH Ha]; intros m Sm P; [now apply Permutation_nil in P|].
  destruct Sm as [|b m Sm Hb]; [symmetry in P; now apply Permutation_nil in P|].
  assert (a = b).
  { apply leb_antisym.
    - assert (I : In b (a :: l)) by (eapply Permutation_in; [symmetry; exact P|now left]). destruct I as [<-|I]; [apply leb_refl|].
      rewrite Forall_forall in Ha. auto.
    - assert (I : In a (b :: m)) by (eapply Permutation_in; [exact P|now left]). destruct I as [<-|I]; [apply leb_refl|].
      rewrite Forall_forall in Hb. auto. }
  subst b. f_equal. apply IH; [exact Sm|]. now apply Permutation_cons_inv in P.
Qed.
Lemma sorted_map {A} (key : A -> bytes) l :
  StronglySorted (fun x y => bytes_leb (key x) (key y) = true) l -> StronglySorted (fun x y => bytes_leb x y = true) (map key l).
Proof. induction 1 as [|a l S IH H]; cbn; constructor; [exact IH|]. now apply Forall_map. Qed.

Context (srt : forall A : Type, (A -> bytes) -> list A -> list A) (Hsrt : sorts srt).
(** Sorting by key gives the same keys for permuted inputs. *)
Lemma srt_keys {A B} (f : A -> bytes) (g : B -> bytes) l m :
  Permutation (map f l) (map g m) -> map f (srt A f l) = map g (srt B g m).
Proof.
  intros P. destruct (Hsrt A f l) as [P1 S1], (Hsrt B g m) as [P2 S2].
  apply sorted_unique; [now apply sorted_map|now apply sorted_map|].
  rewrite <- (Permutation_map f P1), P. now apply Permutation_map.
Qed.
Lemma srt_pk_eq ks ks' : Forall pk_wf ks -> Permutation ks ks' -> srt (pubkey X) (pk_to_bytes X) ks = srt (pubkey X) (pk_to_bytes X) ks'.
Proof.
  intros W P.
  assert (E : map (pk_to_bytes X) (srt _ (pk_to_bytes X) ks) = map (pk_to_bytes X) (srt _ (pk_to_bytes X) ks')) by (apply srt_keys; now apply Permutation_map).
  assert (W1 : Forall pk_wf (srt _ (pk_to_bytes X) ks)) by (eapply Permutation_Forall; [apply (Hsrt _ (pk_to_bytes X) ks)|exact W]).
  assert (W2 : Forall pk_wf (srt _ (pk_to_bytes X) ks'))
    by (eapply Permutation_Forall; [apply (Hsrt _ (pk_to_bytes X) ks')|]; eapply Permutation_Forall; [exact P|exact W]).
  revert W1 W2 E. generalize (srt _ (pk_to_bytes X) ks'). generalize (srt _ (pk_to_bytes X) ks). clear W P.
  intros l. induction l as [|a l IH]; intros [|b m] W1 W2 E; try discriminate; [reflexivity|]. cbn in E. injection E as E1 E2.
  inversion W1; inversion W2; subst. f_equal; [now apply pk_bytes_inj|now apply IH].
Qed.
Lemma all_verify_ok l msg : all_verify X l msg = Ok tt <-> Forall (fun x => pk_verify X (fst x) msg (snd x) = Ok tt) l.
Proof.
  induction l as [|[k s] l IH]; cbn; [split; [constructor|reflexivity]|]. rewrite Forall_cons_iff. cbn [fst snd].
  destruct (pk_verify X k msg s) as [[]| |]; cbn; [rewrite IH; tauto|split; [discriminate|intros [? _]; discriminate]..].
Qed.
End Keys.

Lemma combine_Forall2 {A B} (R : A -> B -> Prop) l m : length l = length m -> (Forall (fun x => R (fst x) (snd x)) (combine l m) <-> Forall2 R l m).
Proof.
  revert m. induction l as [|a l IH]; intros [|b m] L; try discriminate; cbn.
  - split; constructor.
  - rewrite Forall_cons_iff, IH by (cbn in L; lia). cbn. split.
    + intros [H1 H2]. now constructor.
    + inversion 1; subst; auto.
Qed.
