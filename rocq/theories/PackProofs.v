(** Proofs about MessagePack and the forms of derived types. *)
From Coq Require Import List NArith ZArith Bool Lia ZifyBool ZifyNat ZifyN String.
From Verif Require Import Base UtilsModel KeyModel KeyProofs SerModel SerSpec SerProofs SerProps MemoModel MemoProps NoteProofs PackModel PackSpec.
Import ListNotations.
Local Open Scope N_scope.
Notation length := List.length (only parsing).

(** ** Values *)
Lemma val_rec' (P : val -> Prop) :
  P VUnit -> (forall n, P (VNum n)) -> (forall t, P (VStr t)) -> (forall b, P (VBytes b)) ->
  (forall l, Forall P l -> P (VSeq l)) -> (forall l, Forall (fun e => P (fst e) /\ P (snd e)) l -> P (VMap l)) -> forall v, P v.
Proof.
  intros Hu Hn Ht Hb Hs Hm. fix IH 1. intros [ |n|t|b|l|l].
  - exact Hu.
  - apply Hn.
  - apply Ht.
  - apply Hb.
  - apply Hs. induction l as [|v l IHl]; constructor; [apply IH|exact IHl].
  - apply Hm. induction l as [|[k v] l IHl]; constructor; [split; apply IH|exact IHl].
Qed.

Lemma fits_seq l : fits (VSeq l) <-> short l /\ Forall fits l.
Proof. cbn. split; intros [S H]; (split; [exact S|]); induction l; cbn in *; try constructor; try tauto; try (apply IHl; [unfold short in *; cbn in *; lia|]; try tauto); inversion H; subst; try tauto. all: split; [assumption|]. all: apply IHl; [unfold short in *; cbn in *; lia|assumption]. Qed.
Lemma fits_map l : fits (VMap l) <-> short l /\ Forall (fun e => fits (fst e) /\ fits (snd e)) l.
Proof. cbn. split; intros [S H]; (split; [exact S|]); clear S; induction l; cbn in *; try constructor; try tauto; inversion H; subst; tauto. Qed.
Lemma depth_in l d : (depth (VSeq l) <= S d)%nat <-> Forall (fun v => (depth v <= d)%nat) l.
Proof.
  cbn. split; intros H.
  - induction l; constructor; cbn in *; [lia|apply IHl; lia].
  - induction H; cbn in *; lia.
Qed.
Lemma depth_map l d : (depth (VMap l) <= S d)%nat <-> Forall (fun e => (depth (fst e) <= d /\ depth (snd e) <= d)%nat) l.
Proof.
  cbn. split; intros H.
  - induction l; constructor; cbn in *; [lia|apply IHl; lia].
  - induction H; cbn in *; lia.
Qed.

(** ** Reading what was packed *)
Lemma be_len n x : length (be n x) = n.
Proof. unfold be. now rewrite rev_length, le_bytes_len. Qed.
Lemma bytes_in_app n a r : length a = n -> bytes_in n (a ++ r) = Ok (a, r).
Proof.
  intros L. unfold bytes_in. rewrite app_length. replace (Nat.ltb (length a + length r) n) with false by (symmetry; apply Nat.ltb_ge; lia).
  destruct (take n a r L) as [-> ->]. reflexivity.
Qed.
Lemma num_in_be n x r : x < 256 ^ N.of_nat n -> num_in n (be n x ++ r) = Ok (x, r).
Proof.
  intros H. unfold num_in. rewrite bytes_in_app by apply be_len. cbn [rmap bind fst snd]. unfold be. rewrite rev_involutive, le_value_bytes by exact H. reflexivity.
Qed.
Lemma sized_be n k x r : x < 256 ^ N.of_nat n -> sized n k (be n x ++ r) = k x r.
Proof. intros H. unfold sized. rewrite num_in_be by exact H. reflexivity. Qed.
Lemma sized_one k x r : x < 256 -> sized 1 k (x :: r) = k x r.
Proof.
  intros H. change (x :: r) with ([x] ++ r). replace [x] with (be 1 x); [now apply sized_be|].
  unfold be. cbn [le_bytes rev app]. now rewrite N.mod_small.
Qed.

Ltac tests := cbn [unpack]; repeat match goal with
  | |- context[?a <? ?b] => first [replace (a <? b) with false by lia | replace (a <? b) with true by lia]; cbn [orb] 
  end.
Lemma un_num f n r : n < 128 -> unpack (S f) (n :: r) = Ok (VNum n, r).
Proof. intros H. tests. reflexivity. Qed.
Lemma un_map f n r : n < 16 -> unpack (S f) (128 + n :: r) = vmap_in (unpack f) n r.
Proof. intros H. tests. now replace (128 + n - 128) with n by lia. Qed.
Lemma un_seq f n r : n < 16 -> unpack (S f) (144 + n :: r) = vseq_in (unpack f) n r.
Proof. intros H. tests. now replace (144 + n - 144) with n by lia. Qed.
Lemma un_str f n r : n < 32 -> unpack (S f) (160 + n :: r) = str_in n r.
Proof. intros H. tests. now replace (160 + n - 160) with n by lia. Qed.

Lemma head_num f n r : n < 2 ^ 64 -> unpack (S f) (pack_num n ++ r) = Ok (VNum n, r).
Proof.
  intros H. unfold pack_num. destruct (N.ltb_spec n 128); [now apply un_num|].
  destruct (N.ltb_spec n 256); [change (unpack (S f) ([204; n] ++ r)) with (sized 1 (fun n b => Ok (VNum n, b)) (n :: r)); now rewrite sized_one|].
  destruct (N.ltb_spec n 65536); [change (unpack (S f) ((205 :: be 2 n) ++ r)) with (sized 2 (fun n b => Ok (VNum n, b)) (be 2 n ++ r)); now rewrite sized_be|].
  destruct (N.ltb_spec n (2 ^ 32)); [change (unpack (S f) ((206 :: be 4 n) ++ r)) with (sized 4 (fun n b => Ok (VNum n, b)) (be 4 n ++ r)); now rewrite sized_be|].
  change (unpack (S f) ((207 :: be 8 n) ++ r)) with (sized 8 (fun n b => Ok (VNum n, b)) (be 8 n ++ r)). now rewrite sized_be.
Qed.
Lemma head_str f n r : n < 2 ^ 32 -> unpack (S f) (str_head n ++ r) = str_in n r.
Proof.
  intros H. unfold str_head. destruct (N.ltb_spec n 32); [now apply un_str|].
  destruct (N.ltb_spec n 256); [change (unpack (S f) ([217; n] ++ r)) with (sized 1 str_in (n :: r)); now rewrite sized_one|].
  destruct (N.ltb_spec n 65536); [change (unpack (S f) ((218 :: be 2 n) ++ r)) with (sized 2 str_in (be 2 n ++ r)); now rewrite sized_be|].
  change (unpack (S f) ((219 :: be 4 n) ++ r)) with (sized 4 str_in (be 4 n ++ r)); now rewrite sized_be.
Qed.
Lemma head_bin f n r : n < 2 ^ 32 -> unpack (S f) (bin_head n ++ r) = bin_in n r.
Proof.
  intros H. unfold bin_head. 
  destruct (N.ltb_spec n 256); [change (unpack (S f) ([196; n] ++ r)) with (sized 1 bin_in (n :: r)); now rewrite sized_one|].
  destruct (N.ltb_spec n 65536); [change (unpack (S f) ((197 :: be 2 n) ++ r)) with (sized 2 bin_in (be 2 n ++ r)); now rewrite sized_be|].
  change (unpack (S f) ((198 :: be 4 n) ++ r)) with (sized 4 bin_in (be 4 n ++ r)); now rewrite sized_be.
Qed.
Lemma head_seq f n r : n < 2 ^ 32 -> unpack (S f) (seq_head n ++ r) = vseq_in (unpack f) n r.
Proof.
  intros H. unfold seq_head. destruct (N.ltb_spec n 16); [now apply un_seq|].
  destruct (N.ltb_spec n 65536); [change (unpack (S f) ((220 :: be 2 n) ++ r)) with (sized 2 (vseq_in (unpack f)) (be 2 n ++ r)); now rewrite sized_be|].
  change (unpack (S f) ((221 :: be 4 n) ++ r)) with (sized 4 (vseq_in (unpack f)) (be 4 n ++ r)); now rewrite sized_be.
Qed.
Lemma head_map f n r : n < 2 ^ 32 -> unpack (S f) (map_head n ++ r) = vmap_in (unpack f) n r.
Proof.
  intros H. unfold map_head. destruct (N.ltb_spec n 16); [now apply un_map|].
  destruct (N.ltb_spec n 65536); [change (unpack (S f) ((222 :: be 2 n) ++ r)) with (sized 2 (vmap_in (unpack f)) (be 2 n ++ r)); now rewrite sized_be|].
  change (unpack (S f) ((223 :: be 4 n) ++ r)) with (sized 4 (vmap_in (unpack f)) (be 4 n ++ r)); now rewrite sized_be.
Qed.

Lemma seq_in_pack rd l : Forall (fun v => forall r, rd (pack v ++ r) = Ok (v, r)) l ->
  forall r, seq_in rd (length l) (flat_map pack l ++ r) = Ok (l, r).
Proof.
  induction 1 as [|v l Hv _ IH]; intros r; [reflexivity|]. cbn [length seq_in flat_map]. rewrite <- app_assoc, Hv. cbn [bind fst snd]. rewrite IH. reflexivity.
Qed.
Lemma map_in_pack rd l : Forall (fun e => forall r, rd (pack (fst e) ++ r) = Ok (fst e, r) /\ rd (pack (snd e) ++ r) = Ok (snd e, r)) l ->
  forall r, map_in rd (length l) (flat_map (fun e => pack (fst e) ++ pack (snd e)) l ++ r) = Ok (l, r).
Proof.
  induction 1 as [|[k v] l Hv _ IH]; intros r; [reflexivity|]. cbn [length map_in flat_map fst snd] in *. rewrite <- !app_assoc, (proj1 (Hv _)). cbn [bind fst snd].
  rewrite (proj2 (Hv _)). cbn [bind fst snd]. rewrite IH. reflexivity.
Qed.
Lemma unpack_pack v : fits v -> forall f r, (depth v <= f)%nat -> unpack f (pack v ++ r) = Ok (v, r).
Proof.
  induction v as [|n|t|b|l IH|l IH] using val_rec'; intros Hf f r Hd; (destruct f as [|f]; [cbn in Hd; lia|]).
  - reflexivity.
  - now apply head_num.
  - cbn [pack]. rewrite <- app_assoc, head_str by exact Hf. unfold str_in. rewrite bytes_in_app by lia. reflexivity.
  - cbn [pack]. rewrite <- app_assoc, head_bin by exact Hf. unfold bin_in. rewrite bytes_in_app by lia. reflexivity.
  - apply fits_seq in Hf as [Hs Hf]. apply depth_in in Hd. cbn [pack]. rewrite <- app_assoc, head_seq by exact Hs. unfold vseq_in. rewrite Nat2N.id, seq_in_pack; [reflexivity|].
    rewrite Forall_forall in *. intros v Hv r0. apply IH; auto.
  - apply fits_map in Hf as [Hs Hf]. apply depth_map in Hd. cbn [pack]. rewrite <- app_assoc, head_map by exact Hs. unfold vmap_in. rewrite Nat2N.id, map_in_pack; [reflexivity|].
    rewrite Forall_forall in *. intros v Hv r0. split; apply IH; auto; try apply Hf; try apply Hd; auto.
Qed.

(** ** Forms *)
Record law {A} (c : form A) (ok : A -> Prop) (d : nat) : Prop := {
  l_round : forall f x, f = Json \/ f = Msgpack -> ok x -> get c f (put c f x) = Ok x;
  l_fits : forall x, ok x -> fits (put c Msgpack x) /\ (depth (put c Msgpack x) <= d)%nat;
  l_some : forall f x, put c f x <> VUnit }.
Arguments l_round {A c ok d}. Arguments l_fits {A c ok d}. Arguments l_some {A c ok d}.

Lemma law_obj {A} (c : codec A) v : wire c v -> law (obj c) v 1.
Proof.
  intros [F S]. split.
  - intros f x Hf V. now apply (C67_formats A c v F f Hf).
  - intros x V. split; [exact (S x V)|cbn; lia].
  - intros f x. cbn. unfold write. now destruct (human f).
Qed.
Lemma mapM_map {A B} (g : B -> res A) (h : A -> B) l : Forall (fun x => g (h x) = Ok x) l -> mapM g (map h l) = Ok l.
Proof. induction 1 as [|x l Hx _ IH]; [reflexivity|]. cbn. rewrite Hx. cbn. now rewrite IH. Qed.
Lemma law_vec {A} (c : form A) ok d : law c ok d -> law (vec c) (list_ok ok) (S d).
Proof.
  intros L. split.
  - intros f x Hf [S V]. cbn. apply mapM_map. eapply Forall_impl; [|exact V]. intros a Ha. now apply (l_round L).
  - intros x [S V]. split.
    + apply fits_seq. split; [unfold short in *; now rewrite map_length|]. apply Forall_map. eapply Forall_impl; [|exact V]. intros a Ha. now apply (l_fits L).
    + apply depth_in, Forall_map. eapply Forall_impl; [|exact V]. intros a Ha. now apply (l_fits L).
  - discriminate.
Qed.
Lemma get_opt {A} (c : form A) f v : v <> VUnit -> get (opt c) f v = rmap Some (get c f v).
Proof. intros H. destruct v; try reflexivity. contradiction. Qed.
(** Options are never inside options here, so [l_some] is not asked of them. *)
Record law0 {A} (c : form A) (ok : A -> Prop) (d : nat) : Prop := {
  l0_round : forall f x, f = Json \/ f = Msgpack -> ok x -> get c f (put c f x) = Ok x;
  l0_fits : forall x, ok x -> fits (put c Msgpack x) /\ (depth (put c Msgpack x) <= d)%nat }.
Arguments l0_round {A c ok d}. Arguments l0_fits {A c ok d}.
Lemma law_law0 {A} (c : form A) ok d : law c ok d -> law0 c ok d.
Proof. intros [a b _]. now split. Qed.
Lemma law0_opt {A} (c : form A) ok d : (0 < d)%nat -> law c ok d -> law0 (opt c) (opt_ok ok) d.
Proof.
  intros Hd L. split.
  - intros f [x|] Hf V; [|reflexivity]. cbn [opt put]. rewrite get_opt by apply (l_some L). now rewrite (l_round L f x Hf V).
  - intros [x|] V; [exact (l_fits L x V)|]. split; [exact I|cbn; lia].
Qed.
Lemma law_vec0 {A} (c : form A) ok d : law0 c ok d -> law (vec c) (list_ok ok) (S d).
Proof.
  intros L. split.
  - intros f x Hf [S V]. cbn. apply mapM_map. eapply Forall_impl; [|exact V]. intros a Ha. now apply (l0_round L).
  - intros x [S V]. split.
    + apply fits_seq. split; [unfold short in *; now rewrite map_length|]. apply Forall_map. eapply Forall_impl; [|exact V]. intros a Ha. now apply (l0_fits L).
    + apply depth_in, Forall_map. eapply Forall_impl; [|exact V]. intros a Ha. now apply (l0_fits L).
  - discriminate.
Qed.
Lemma law_tup {A B} (a : form A) (b : form B) oa ob da db : law a oa da -> law b ob db -> law (tup a b) (fun x => oa (fst x) /\ ob (snd x)) (S (Nat.max da db)).
Proof.
  intros La Lb. split.
  - intros f [x y] Hf [Vx Vy]. cbn. cbn in Vx, Vy. rewrite (l_round La f x Hf Vx). cbn. now rewrite (l_round Lb f y Hf Vy).
  - intros [x y] [Vx Vy]. cbn [fst snd] in *. destruct (l_fits La x Vx), (l_fits Lb y Vy). split; [apply fits_seq|apply depth_in].
    + split; [reflexivity|]. repeat constructor; assumption.
    + repeat constructor; cbn [fst snd]; lia.
  - discriminate.
Qed.
Lemma law_array n : (N.of_nat n < 2 ^ 32) -> law (array n) (bytes_of n) 2.
Proof.
  intros Hn. split.
  - intros f x Hf [B L]. cbn [array get put]. rewrite (proj1 (C67_vectors x B)). cbn. now rewrite L, Nat.eqb_refl.
  - intros x [B L]. cbn [array put write_vec]. split; [apply fits_seq|apply depth_in].
    + split; [unfold short; rewrite map_length; lia|]. apply Forall_map. eapply Forall_impl; [|exact B]. intros a Ha. cbn. cbn in Ha. eapply N.lt_trans; [exact Ha|reflexivity].
    + apply Forall_map. eapply Forall_impl; [|exact B]. intros a Ha. cbn. lia.
  - discriminate.
Qed.

(** ** Structs *)
Record flaw {A} (c : fields A) (ok : A -> Prop) (d : nat) : Prop := {
  fl_round : forall f x, f = Json \/ f = Msgpack -> ok x -> fget c f (fput c f x) = Ok x;
  fl_fits : forall x, ok x -> Forall (fun v => fits v /\ (depth v <= d)%nat) (fput c Msgpack x);
  fl_len : forall f x, length (fput c f x) = length (names c) }.
Arguments fl_round {A c ok d}. Arguments fl_fits {A c ok d}. Arguments fl_len {A c ok d}.
Lemma flaw_nil : flaw fnil (fun _ => True) 0.
Proof. split; [now intros ? []|constructor|reflexivity]. Qed.
Lemma flaw_cons {A B} n (a : form A) (b : fields B) oa ob da db : law0 a oa da -> flaw b ob db ->
  flaw (fcons n a b) (fun x => oa (fst x) /\ ob (snd x)) (Nat.max da db).
Proof.
  intros La Lb. split.
  - intros f [x y] Hf [Vx Vy]. cbn. cbn in Vx, Vy. rewrite (l0_round La f x Hf Vx). cbn. now rewrite (fl_round Lb f y Hf Vy).
  - intros [x y] [Vx Vy]. cbn [fcons fput fst snd] in *. constructor; [destruct (l0_fits La x Vx); split; [assumption|lia]|].
    eapply Forall_impl; [|exact (fl_fits Lb y Vy)]. intros v [F D]. split; [exact F|lia].
  - intros f x. cbn. f_equal. apply (fl_len Lb).
Qed.

Lemma eqb_refl' n : bytes_eqb n n = true. Proof. now apply eqb_iff. Qed.
Lemma pick_none n ns : forall vs, ~ In n ns -> pick n (combine (map VStr ns) vs) = Ok None.
Proof.
  induction ns as [|m ns IH]; intros [|v vs] H; try reflexivity. cbn in *. destruct (bytes_eqb m n) eqn:E; [apply eqb_iff in E; tauto|]. apply IH. tauto.
Qed.
Lemma pick_all pre ns : forall vs pv, NoDup (pre ++ ns) -> length vs = length ns -> length pv = length pre ->
  mapM (pick1 (combine (map VStr (pre ++ ns)) (pv ++ vs))) ns = Ok vs.
Proof.
  revert pre. induction ns as [|n ns IH]; intros pre [|v vs] pv ND L Lp; try discriminate; [reflexivity|]. cbn [mapM].
  assert (P : pick1 (combine (map VStr (pre ++ n :: ns)) (pv ++ v :: vs)) n = Ok v).
  { clear IH. unfold pick1. revert pv Lp. induction pre as [|m pre IHp]; intros [|w pv] Lp; try discriminate.
    - cbn. rewrite eqb_refl'. rewrite pick_none; [reflexivity|]. now inversion ND.
    - cbn. destruct (bytes_eqb m n) eqn:E.
      + apply eqb_iff in E. subst m. inversion ND as [|? ? Hn _]. exfalso. apply Hn. apply in_or_app. right. now left.
      + apply IHp; [now inversion ND|]. cbn in Lp. lia. }
  rewrite P. cbn [bind]. specialize (IH (pre ++ [n]) vs (pv ++ [v])). rewrite <- !app_assoc in IH. cbn [app] in IH. rewrite IH; [reflexivity|exact ND|cbn in L; lia|rewrite !app_length; cbn; lia].
Qed.
Lemma law_strct {A T} (fs : fields T) (to : A -> T) from ok d (oka : A -> Prop) :
  flaw fs ok d -> NoDup (names fs) -> short (names fs) -> (forall x, from (to x) = x) -> (forall x, oka x -> ok (to x)) -> law (strct fs to from) oka (S d).
Proof.
  intros L ND SH FT K. split.
  - intros f x Hf V. specialize (K x V). cbn [strct get put]. destruct (human f).
    + pose proof (pick_all [] (names fs) (fput fs f (to x)) [] ND (fl_len L f _) eq_refl) as P. cbn [app] in P. rewrite P. cbn [bind].
      rewrite (fl_round L f _ Hf K). cbn. now rewrite FT.
    + rewrite (fl_round L f _ Hf K). cbn. now rewrite FT.
  - intros x V. pose proof (fl_fits L _ (K x V)) as F. cbn [strct put human]. split; [apply fits_seq|apply depth_in].
    + split; [unfold short in *; now rewrite (fl_len L)|]. eapply Forall_impl; [|exact F]. now intros v [? _].
    + eapply Forall_impl; [|exact F]. now intros v [_ ?].
  - intros f x. cbn. destruct (human f); discriminate.
Qed.
