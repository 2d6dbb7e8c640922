(** C60: the challenges of the non-interactive proofs bind everything they should. *)
From Coq Require Import List NArith Bool Lia.
From Verif Require Import Base Field SigmaModel.
Import ListNotations.

Section Bind.
Context {F : Field} {G : Mod F} (B H : G).
Local Notation transcript := (transcript (F := F) (G := G)).
Local Notation oracle := (oracle (F := F) (G := G)).
Local Notation ev := (ev (F := F) (G := G)).

(** ** Reading a transcript from its end *)
Lemma tail_block {A} (f : A -> ev) (Hf : forall x y, f x = f y -> x = y) k1 k2 y1 y2 :
  (forall x, f x <> y1) -> (forall x, f x <> y2) ->
  forall c1 c2, k1 ++ [y1] ++ map f c1 = k2 ++ [y2] ++ map f c2 -> k1 = k2 /\ y1 = y2 /\ c1 = c2.
Proof.
  intros N1 N2. induction c1 as [|a c1 IH] using rev_ind; intros c2.
  - destruct c2 as [|b c2 _] using rev_ind; cbn [map].
    + intros Q. apply app_inj_tail in Q. destruct Q as [-> ->]. auto.
    + rewrite map_app, !app_assoc. cbn [map]. intros Q. rewrite app_nil_r in Q. apply app_inj_tail in Q. destruct Q as [_ Q]. symmetry in Q. now apply N1 in Q.
  - rewrite map_app. cbn [map]. destruct c2 as [|b c2 _] using rev_ind; cbn [map].
    + rewrite !app_assoc, app_nil_r. intros Q. apply app_inj_tail in Q. destruct Q as [_ Q]. now apply N2 in Q.
    + rewrite map_app. cbn [map]. rewrite !app_assoc. intros Q. apply app_inj_tail in Q. destruct Q as [Q E]. apply Hf in E. subst b. rewrite <- !app_assoc in Q. apply IH in Q. destruct Q as [-> [-> ->]]. auto.
Qed.
Lemma Elem_inj x y : (Elem x : ev) = Elem y -> x = y. Proof. congruence. Qed.
Lemma Com_inj x y : (Com x : ev) = Com y -> x = y. Proof. congruence. Qed.
Lemma Scal_inj x y : (Scal x : ev) = Scal y -> x = y. Proof. congruence. Qed.
Lemma drawn_tail k1 k2 (y1 y2 : ev) n1 n2 : y1 <> Drawn -> y2 <> Drawn ->
  k1 ++ [y1] ++ repeat Drawn n1 = k2 ++ [y2] ++ repeat Drawn n2 -> k1 = k2 /\ y1 = y2 /\ n1 = n2.
Proof.
  intros N1 N2 Q. assert (R : forall n, repeat (Drawn : ev) n = map (fun _ : unit => Drawn) (repeat tt n)) by (induction n as [|n IH]; [reflexivity|]; cbn; now rewrite IH).
  rewrite !R in Q. apply tail_block in Q; [|intros [] []; reflexivity|congruence..]. destruct Q as [E1 [E2 E3]]. repeat split; auto. apply (f_equal (@length unit)) in E3. now rewrite !repeat_length in E3.
Qed.
Lemma app_last2 {A} (k1 k2 : list A) a b c d : k1 ++ [a; b] = k2 ++ [c; d] -> k1 = k2 /\ a = c /\ b = d.
Proof.
  intros Q. change [a; b] with ([a] ++ [b]) in Q. change [c; d] with ([c] ++ [d]) in Q. rewrite !app_assoc in Q. apply app_inj_tail in Q. destruct Q as [Q ->]. apply app_inj_tail in Q. destruct Q as [-> ->]. auto.
Qed.
(** The end of the transcript of one sigma protocol. *)
Lemma sigma_tail k1 k2 (e1 e2 : list G) (c1 c2 : list G) :
  k1 ++ [Tag 0; Tag 1] ++ map Elem e1 ++ map Com c1 = (k2 ++ [Tag 0; Tag 1] ++ map Elem e2 ++ map Com c2 : list ev) -> k1 = k2 /\ e1 = e2 /\ c1 = c2.
Proof.
  intros Q. assert (R : forall k (e c : list G), exists k' y, k ++ [Tag 0; Tag 1] ++ map Elem e ++ map Com c = k' ++ [y] ++ map Com c /\ (forall x, Com x <> y) /\ k' ++ [y] = (k ++ [Tag 0] ++ [Tag 1] ++ map Elem e : list ev)).
  { intros k e c. destruct e as [|x e _] using rev_ind.
    - exists (k ++ [Tag 0]), (Tag 1). cbn [map app]. rewrite <- !app_assoc. repeat split; congruence.
    - exists (k ++ [Tag 0; Tag 1] ++ map Elem e), (Elem x). rewrite map_app. cbn [map]. rewrite <- !app_assoc. cbn [app]. repeat split. congruence. }
  destruct (R k1 e1 c1) as [k1' [y1 [Q1 [N1 P1]]]]. destruct (R k2 e2 c2) as [k2' [y2 [Q2 [N2 P2]]]]. rewrite Q1, Q2 in Q. apply tail_block in Q; [|exact Com_inj|assumption..]. destruct Q as [-> [-> ->]].
  rewrite P1 in P2. rewrite !(app_assoc _ [Tag 0]) in P2. apply tail_block in P2; [|exact Elem_inj|congruence..]. destruct P2 as [E [_ ->]]. apply app_inj_tail in E. now destruct E as [-> _].
Qed.

(** ** Sigma protocols *)
Definition sigma_query (t : transcript) (elems coms : list G) : transcript := t ++ [Tag 0; Tag 1] ++ map Elem elems ++ map Com coms.
Lemma sigma_query_init elems coms t : init_sigma_protocol elems t ++ map Com coms = sigma_query t elems coms.
Proof. unfold init_sigma_protocol, init_sigma, sigma_query. now rewrite <- !app_assoc. Qed.
(** The verdict depends on the random oracle at one point only, and this point
    determines the transcript before, the public elements and the commitments. *)
Theorem C60_sigma_challenge_binds :
  exists q : transcript -> list G -> list G -> transcript,
  (forall t e c t' e' c', q t e c = q t' e' c' -> t = t' /\ e = e' /\ c = c') /\
  forall (chal chal' : oracle) t g elems lhs rhs p, chal (q t elems (s_coms p)) = chal' (q t elems (s_coms p)) ->
  sigma_verify chal t g elems lhs rhs p = sigma_verify chal' t g elems lhs rhs p.
Proof.
  exists sigma_query. split; [intros; now apply sigma_tail|]. intros chal chal' t g elems lhs rhs p Q. unfold sigma_verify, sigma_verify_scalars. destruct (negb _); [reflexivity|]. destruct (negb _); [reflexivity|].
  unfold get_challenge. rewrite sigma_query_init, Q. reflexivity.
Qed.
Lemma scalars_same (chal chal' : oracle) t g elems lhs rhs p : chal (sigma_query t elems (s_coms p)) = chal' (sigma_query t elems (s_coms p)) ->
  sigma_verify_scalars chal t g elems lhs rhs p = sigma_verify_scalars chal' t g elems lhs rhs p.
Proof. intros Q. unfold sigma_verify_scalars. destruct (negb _); [reflexivity|]. destruct (negb _); [reflexivity|]. unfold get_challenge. now rewrite sigma_query_init, Q. Qed.
Lemma scalars_transcript (chal : oracle) t g elems lhs rhs p s t' g' : sigma_verify_scalars chal t g elems lhs rhs p = Ok (s, t', g') -> t' = sigma_query t elems (s_coms p) ++ [Drawn].
Proof. unfold sigma_verify_scalars. destruct (negb _); [discriminate|]. destruct (negb _); [discriminate|]. unfold get_challenge. rewrite sigma_query_init. intros Q. now injection Q. Qed.
Lemma draws_same (chal chal' : oracle) n : forall t, (forall k, (k < n)%nat -> chal (t ++ repeat Drawn k) = chal' (t ++ repeat Drawn k)) ->
  draws chal n t = draws chal' n t /\ draws chal n t = (map (fun k => chal (t ++ repeat Drawn k)) (seq 0 n), t ++ repeat Drawn n).
Proof.
  induction n as [|n IH]; intros t K; [cbn; rewrite app_nil_r; auto|]. cbn [draws]. unfold get_challenge.
  assert (K' : forall k, chal ((t ++ [Drawn]) ++ repeat Drawn k) = chal (t ++ repeat Drawn (S k))) by (intros; now rewrite <- app_assoc).
  destruct (IH (t ++ [Drawn])) as [E1 E2]; [intros k Hk; rewrite <- app_assoc; apply (K (S k)); lia|].
  assert (Q : chal t = chal' t) by (specialize (K 0%nat ltac:(lia)); cbn [repeat] in K; now rewrite app_nil_r in K). rewrite <- Q, <- E1. split; [reflexivity|]. rewrite E2. f_equal.
  - cbn [seq map repeat]. rewrite app_nil_r. f_equal. rewrite <- seq_shift, map_map. apply map_ext. exact K'.
  - now rewrite <- app_assoc.
Qed.
Definition combination (chal : oracle) (q : nat -> transcript) (n : nat) : list F :=
  match n with O => [] | S n' => f1 :: map (fun k => chal (q k)) (seq 0 n') end.
Lemma lc_same (chal chal' : oracle) t n : (forall k, (S k < n)%nat -> chal (t ++ repeat Drawn k) = chal' (t ++ repeat Drawn k)) ->
  lc_scalars chal t n = lc_scalars chal' t n /\ lc_scalars chal t n = (combination chal (fun k => t ++ repeat Drawn k) n, t ++ repeat Drawn (pred n)).
Proof.
  intros K. destruct n as [|n]; cbn [lc_scalars combination pred]; [rewrite app_nil_r; auto|]. destruct (draws_same chal chal' n t) as [E1 E2]; [intros k Hk; apply K; lia|]. now rewrite <- E1, E2.
Qed.

(** ** Ciphertexts and commitments *)
Definition pe_query1 (t : transcript) (pk : G) (cts : list (G * G)) (coms : list G) (k : nat) : transcript :=
  init_pe_transcript B H t pk cts coms ++ repeat Drawn k.
Definition pe_query2 (t : transcript) (pk : G) (cts : list (G * G)) (coms : list G) (x : list F) (e1 : G * G) (c1 : G) : transcript :=
  sigma_query ((pe_query1 t pk cts coms (pred (length cts))) ++ [Tag 3]) (pe_elems B H pk (lc_ct x cts) (lc_g x coms)) [fst e1; snd e1; c1].
Lemma flat_pairs (l l' : list (G * G)) r r' : length l = length l' -> flat_map (fun c => [fst c; snd c]) l ++ r = flat_map (fun c => [fst c; snd c]) l' ++ r' -> l = l' /\ r = r'.
Proof.
  revert l'. induction l as [|[a b] l IH]; intros [|[a' b'] l'] Hl; try discriminate; [auto|]. cbn [flat_map fst snd app]. intros Q. injection Q as -> -> Q. apply IH in Q; [|now injection Hl]. destruct Q as [-> ->]. auto.
Qed.
Lemma flat_len (l : list (G * G)) : length (flat_map (fun c => [fst c; snd c]) l) = (2 * length l)%nat.
Proof. induction l as [|x l IH]; [reflexivity|]. cbn [flat_map length app]. rewrite IH. lia. Qed.
Lemma pe_query1_inj t pk cts coms k t' pk' cts' coms' k' : length cts = length coms -> length cts' = length coms' ->
  pe_query1 t pk cts coms k = pe_query1 t' pk' cts' coms' k' -> t = t' /\ pk = pk' /\ cts = cts' /\ coms = coms' /\ k = k'.
Proof.
  intros L L'. unfold pe_query1, init_pe_transcript, init_sigma. intros Q.
  assert (R : forall (t : transcript) (l : list G) k, exists k' y, (t ++ [Tag 0; Tag 2] ++ map Elem ([B; H] ++ l)) ++ repeat Drawn k = k' ++ [y] ++ repeat Drawn k /\ y <> Drawn /\ k' ++ [y] = t ++ [Tag 0; Tag 2] ++ map Elem ([B; H] ++ l)).
  { clear. intros t l k. destruct l as [|x l _] using rev_ind; [exists (t ++ [Tag 0; Tag 2; Elem B]), (Elem H)|exists (t ++ [Tag 0; Tag 2] ++ map Elem ([B; H] ++ l)), (Elem x)].
    - rewrite <- !app_assoc. cbn [app map]. repeat split; congruence.
    - rewrite (app_assoc [B; H]), map_app. cbn [map]. rewrite <- !app_assoc. repeat split. congruence. }
  change ([B; H; pk] ++ ?l) with ([B; H] ++ ([pk] ++ l)) in Q. change ([B; H; pk'] ++ ?l) with ([B; H] ++ ([pk'] ++ l)) in Q.
  match type of Q with (_ ++ _ ++ map _ ([B; H] ++ ?l1)) ++ _ = (_ ++ _ ++ map _ ([B; H] ++ ?l2)) ++ _ => destruct (R t l1 k) as [a1 [y1 [Q1 [N1 P1]]]]; destruct (R t' l2 k') as [a2 [y2 [Q2 [N2 P2]]]] end.
  rewrite Q1, Q2 in Q. apply drawn_tail in Q; [|assumption..]. destruct Q as [-> [-> ->]]. rewrite P1 in P2. change [Tag 0; Tag 2] with ([Tag 0] ++ [Tag 2] : list ev) in P2. rewrite <- !app_assoc, !(app_assoc _ [Tag 0]) in P2.
  apply tail_block in P2; [|exact Elem_inj|congruence..]. destruct P2 as [E [_ P2]]. apply app_inj_tail in E. destruct E as [-> _]. cbn [app] in P2. injection P2 as -> P2.
  assert (L2 : length cts = length cts') by (apply (f_equal (@length G)) in P2; rewrite !app_length, !flat_len in P2; lia). apply flat_pairs in P2; [|exact L2]. destruct P2 as [-> ->]. auto.
Qed.
(** The scalars that combine the pairs bind the key, all ciphertexts and all
    commitments; the challenge binds these and the first message of the proof. *)
Theorem C60_ciphertext_challenges_bind :
  exists (q1 : transcript -> G -> list (G * G) -> list G -> nat -> transcript) (q2 : transcript -> G -> list (G * G) -> list G -> list F -> G * G -> G -> transcript),
  (forall t pk cts coms k t' pk' cts' coms' k', length cts = length coms -> length cts' = length coms' ->
     q1 t pk cts coms k = q1 t' pk' cts' coms' k' -> t = t' /\ pk = pk' /\ cts = cts' /\ coms = coms' /\ k = k') /\
  (forall t pk cts coms x e1 c1 t' pk' cts' coms' x' e1' c1', length cts = length coms -> length cts' = length coms' ->
     q2 t pk cts coms x e1 c1 = q2 t' pk' cts' coms' x' e1' c1' -> t = t' /\ pk = pk' /\ cts = cts' /\ coms = coms' /\ e1 = e1' /\ c1 = c1') /\
  forall (chal chal' : oracle) t g pk cts coms p,
    (forall k, (S k < length cts)%nat -> chal (q1 t pk cts coms k) = chal' (q1 t pk cts coms k)) ->
    (let q := q2 t pk cts coms (combination chal (q1 t pk cts coms) (length cts)) (pe_e1 p) (pe_c1 p) in chal q = chal' q) ->
    pe_aggregate_verify B H chal t g pk cts coms p = pe_aggregate_verify B H chal' t g pk cts coms p.
Proof.
  exists pe_query1, pe_query2. split; [exact pe_query1_inj|]. split.
  - intros t pk cts coms x e1 c1 t' pk' cts' coms' x' e1' c1' L L' Q. unfold pe_query2 in Q. apply sigma_tail in Q. destruct Q as [Q [_ Qc]]. apply app_inj_tail in Q. destruct Q as [Q _].
    apply pe_query1_inj in Q; [|assumption..]. destruct Q as [-> [-> [-> [-> _]]]]. destruct e1, e1'. cbn [fst snd] in Qc. injection Qc as -> -> ->. auto 6.
  - intros chal chal' t g pk cts coms p K1 K2. unfold pe_aggregate_verify, pe_batch_verify. cbn [foldr_res]. unfold pe_step. cbn [pi_pk pi_cts pi_coms pi_proof]. destruct (negb _); [reflexivity|].
    destruct (lc_same chal chal' (init_pe_transcript B H t pk cts coms) (length cts) K1) as [E1 E2]. unfold ctext in *. rewrite <- E1, E2. unfold pe_verify_scalars.
    rewrite (scalars_same chal chal'); [reflexivity|]. exact K2.
Qed.

(** ** Commitments to one value *)
Definition cp_query1 (t : transcript) (coms : list G) (c3 c4 : G) : transcript :=
  sigma_query (init_cp_multiple B H t coms ++ [Tag 4]) (cp_elems B H (nth 0 coms m0) (nth 1 coms m0)) [c3; c4].
Definition cp_query2 (t : transcript) (coms : list G) (c3 c4 : G) (k : nat) : transcript := (cp_query1 t coms c3 c4 ++ [Drawn]) ++ repeat Drawn k.
Definition cp_query3 (t : transcript) (coms : list G) (c3 c4 : G) (a : list F) (d3 d4 : G) : transcript :=
  sigma_query (cp_query2 t coms c3 c4 (pred (length coms - 2)) ++ [Tag 4]) (cp_elems B H (cp_d a coms (nth 0 coms m0)) m0) [d3; d4].
Lemma cp_query1_inj t coms c3 c4 t' coms' c3' c4' : cp_query1 t coms c3 c4 = cp_query1 t' coms' c3' c4' -> t = t' /\ coms = coms' /\ c3 = c3' /\ c4 = c4'.
Proof.
  intros Q. apply sigma_tail in Q. destruct Q as [Q [_ Qc]]. injection Qc as -> ->. apply app_inj_tail in Q. destruct Q as [Q _]. unfold init_cp_multiple, init_sigma in Q.
  change [Tag 0; Tag 5] with ([Tag 0] ++ [Tag 5] : list ev) in Q. rewrite <- !app_assoc, !(app_assoc _ [Tag 0]) in Q. apply tail_block in Q; [|exact Elem_inj|congruence..]. destruct Q as [E [_ Q]]. apply app_inj_tail in E. destruct E as [-> _]. injection Q as ->. auto.
Qed.
Lemma cp_query2_inj t coms c3 c4 k t' coms' c3' c4' k' : cp_query2 t coms c3 c4 k = cp_query2 t' coms' c3' c4' k' -> t = t' /\ coms = coms' /\ c3 = c3' /\ c4 = c4' /\ k = k'.
Proof.
  unfold cp_query2. intros Q.
  assert (R : forall (t : transcript) coms c3 c4 k, exists l, (cp_query1 t coms c3 c4 ++ [Drawn]) ++ repeat Drawn k = l ++ [Com c4] ++ repeat Drawn (S k) /\ l ++ [Com c4] = cp_query1 t coms c3 c4).
  { clear. intros t coms c3 c4 k. assert (E : forall (u : transcript) e, sigma_query u e [c3; c4] = sigma_query u e [c3] ++ [Com c4]) by (intros; unfold sigma_query; cbn [map]; rewrite <- !app_assoc; reflexivity).
    unfold cp_query1. rewrite E. match goal with |- context [?l ++ [Com c4]] => exists l end. split; [|reflexivity]. cbn [repeat]. rewrite <- !app_assoc. reflexivity. }
  destruct (R t coms c3 c4 k) as [l [Q1 P1]]. destruct (R t' coms' c3' c4' k') as [l' [Q2 P2]]. rewrite Q1, Q2 in Q. apply drawn_tail in Q; [|congruence..]. destruct Q as [-> [E Ek]]. rewrite E in P1. rewrite P1 in P2. apply cp_query1_inj in P2.
  destruct P2 as [-> [-> [-> ->]]]. injection Ek as ->. auto 6.
Qed.
Theorem C60_equality_challenges_bind :
  exists (q1 : transcript -> list G -> G -> G -> transcript) (q2 : transcript -> list G -> G -> G -> nat -> transcript) (q3 : transcript -> list G -> G -> G -> list F -> G -> G -> transcript),
  (forall t coms c3 c4 t' coms' c3' c4', q1 t coms c3 c4 = q1 t' coms' c3' c4' -> t = t' /\ coms = coms' /\ c3 = c3' /\ c4 = c4') /\
  (forall t coms c3 c4 k t' coms' c3' c4' k', q2 t coms c3 c4 k = q2 t' coms' c3' c4' k' -> t = t' /\ coms = coms' /\ c3 = c3' /\ c4 = c4' /\ k = k') /\
  (forall t coms c3 c4 a d3 d4 t' coms' c3' c4' a' d3' d4', q3 t coms c3 c4 a d3 d4 = q3 t' coms' c3' c4' a' d3' d4' -> t = t' /\ coms = coms' /\ c3 = c3' /\ c4 = c4' /\ d3 = d3' /\ d4 = d4') /\
  forall (chal chal' : oracle) t g coms p,
    let c3 := cp_c3 (x_eq p) in let c4 := cp_c4 (x_eq p) in
    chal (q1 t coms c3 c4) = chal' (q1 t coms c3 c4) ->
    (forall k, chal (q2 t coms c3 c4 k) = chal' (q2 t coms c3 c4 k)) ->
    (forall pz, x_zero p = Some pz -> let q := q3 t coms c3 c4 (combination chal (q2 t coms c3 c4) (length coms - 2)) (cp_c3 pz) (cp_c4 pz) in chal q = chal' q) ->
    cp_verify_multiple B H chal t g coms p = cp_verify_multiple B H chal' t g coms p.
Proof.
  exists cp_query1, cp_query2, cp_query3. split; [exact cp_query1_inj|]. split; [exact cp_query2_inj|]. split.
  - intros t coms c3 c4 a d3 d4 t' coms' c3' c4' a' d3' d4' Q. apply sigma_tail in Q. destruct Q as [Q [_ Qc]]. injection Qc as -> ->. apply app_inj_tail in Q. destruct Q as [Q _]. apply cp_query2_inj in Q. destruct Q as [-> [-> [-> [-> _]]]]. auto 7.
  - intros chal chal' t g coms p c3 c4 K1 K2 K3. unfold cp_verify_multiple. destruct coms as [|c0 [|c1 l]]; try reflexivity. unfold cp_verify at 1 3. cbn [cp_sigma s_coms] in *.
    rewrite (scalars_same chal chal') by exact K1.
    destruct (sigma_verify_scalars chal' _ g (cp_elems B H c0 c1) cp_lhs cp_rhs (cp_sigma (x_eq p))) as [[[s t2] g2]| |] eqn:Es; [|reflexivity..]. cbn [bind fst snd].
    destruct (meqb _ _); [|reflexivity]. cbn [bind fst snd]. destruct (Nat.eqb _ 2); [reflexivity|]. destruct (x_zero p) as [pz|]; [|reflexivity].
    apply scalars_transcript in Es. change (t2 = cp_query1 t (c0 :: c1 :: l) c3 c4 ++ [Drawn]) in Es. subst t2.
    destruct (lc_same chal chal' (cp_query1 t (c0 :: c1 :: l) c3 c4 ++ [Drawn]) (length (c0 :: c1 :: l) - 2)) as [E1 E2]; [intros k _; apply K2|].
    rewrite <- E1, E2. unfold cp_verify. rewrite (scalars_same chal chal'); [reflexivity|]. exact (K3 pz eq_refl).
Qed.

(** ** Delegated Schnorr *)
Lemma ds_inj (t t' : transcript) coms comm rand coms' comm' rand' :
  ds_transcript B H t coms comm rand = ds_transcript B H t' coms' comm' rand' -> t = t' /\ coms = coms' /\ comm = comm' /\ rand = rand'.
Proof.
  unfold ds_transcript. intros Q. rewrite !app_assoc in Q. rewrite <- !(app_assoc _ [Other _]) in Q. apply tail_block in Q; [|exact Com_inj|congruence..]. destruct Q as [Q [E ->]]. injection E as ->.
  change [Elem B; Elem H; Num ?n] with ([Elem B; Elem H] ++ [Num n] : list ev) in Q. rewrite !app_assoc in Q. rewrite <- !(app_assoc _ [Num _]) in Q. apply tail_block in Q; [|exact Elem_inj|congruence..]. destruct Q as [Q [_ ->]].
  apply app_inv_tail in Q. auto.
Qed.
Lemma flat_scals (l l' : list (F * F)) : flat_map (fun s => [Scal (fst s); Scal (snd s)] : list ev) l = flat_map (fun s => [Scal (fst s); Scal (snd s)]) l' -> l = l'.
Proof.
  revert l'. induction l as [|[a b] l IH]; intros [|[a' b'] l']; try discriminate; [auto|]. cbn [flat_map fst snd app]. intros Q. injection Q as -> -> Q. f_equal. now apply IH.
Qed.
(** The first challenge binds the commitments, the inspector's commitment and the
    randomizers; the second one also the responses. *)
Theorem C60_delegated_challenges_bind :
  exists (q1 : transcript -> list G -> N -> list G -> transcript) (q2 : transcript -> list G -> N -> list G -> list (F * F) -> transcript),
  (forall t coms comm rand t' coms' comm' rand', q1 t coms comm rand = q1 t' coms' comm' rand' -> t = t' /\ coms = coms' /\ comm = comm' /\ rand = rand') /\
  (forall t coms comm rand resp t' coms' comm' rand' resp', q2 t coms comm rand resp = q2 t' coms' comm' rand' resp' -> t = t' /\ coms = coms' /\ comm = comm' /\ rand = rand' /\ resp = resp') /\
  forall (chal chal' : oracle) t coms p,
    let a := q1 t coms (ds_comm p) (ds_rand p) in let b := q2 t coms (ds_comm p) (ds_rand p) (ds_resp p) in
    chal a = chal' a -> chal b = chal' b -> ds_verify B H chal t coms p = ds_verify B H chal' t coms p.
Proof.
  exists (ds_transcript B H), (fun t coms comm rand resp => ds_after (ds_transcript B H t coms comm rand) resp). split; [intros; now apply ds_inj|]. split.
  - intros t coms comm rand resp t' coms' comm' rand' resp'. unfold ds_after.
    assert (R : forall l : list (F * F), flat_map (fun s => [Scal (fst s); Scal (snd s)] : list ev) l = map Scal (flat_map (fun s => [fst s; snd s]) l)) by (induction l as [|x l IH]; [reflexivity|]; cbn; now rewrite IH).
    rewrite !R. intros Q. apply tail_block in Q; [|exact Scal_inj|congruence..]. destruct Q as [Q [_ E]]. apply ds_inj in Q. destruct Q as [-> [-> [-> ->]]]. repeat split; auto. apply flat_scals. now rewrite !R, E.
  - intros chal chal' t coms p a b Ea Eb. unfold ds_verify. destruct (negb _); [reflexivity|]. destruct (negb _); [reflexivity|]. fold a. change (ds_after a (ds_resp p)) with b. now rewrite Ea, Eb.
Qed.
End Bind.
Print Assumptions C60_sigma_challenge_binds.
Print Assumptions C60_ciphertext_challenges_bind.
Print Assumptions C60_equality_challenges_bind.
Print Assumptions C60_delegated_challenges_bind.
(** The verdict does depend on the challenge: the same proof is accepted under one
    oracle and refused under another one. *)
Example C60_challenge_matters (F : Field) (G : Mod F) (B H : G) : B <> m0 ->
  let p := mkDs 7 [m0] [(f1, f0)] in
  ds_verify B H (fun _ => f1) [] [B] p = Ok (f1, f1) /\ ds_verify B H (fun _ => f0) [] [B] p = Err.
Proof.
  intros NB p. assert (Q : forall b : F, SigmaModel.commit B H (f1 : F) f0 = (b *: B + m0)%M <-> B = (b *: B)%M).
  { intros b. unfold SigmaModel.commit. rewrite (smul_1 _ G), smul_0l, !madd_0_r. reflexivity. }
  unfold ds_verify, p. cbn -[meqb SigmaModel.commit smul madd m0]. split.
  - destruct (meqb_spec (SigmaModel.commit B H (f1 : F) f0) (f1 *: B + m0)%M) as [_|N]; [reflexivity|]. exfalso. apply N, Q. now rewrite (smul_1 _ G).
  - destruct (meqb_spec (SigmaModel.commit B H (f1 : F) f0) (f0 *: B + m0)%M) as [E|_]; [|reflexivity]. apply Q in E. rewrite smul_0l in E. contradiction.
Qed.
