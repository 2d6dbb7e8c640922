(** Property theorems for address folding (C62): what the in-circuit part of the
    folding proof establishes, when it can be built, and the transfer circuit with
    the real gadget.  The circuit field is BLS12-381's scalar field, the keys'
    coordinates live in the base field of secp256k1. *)
From Coq Require Import List ZArith NArith Bool Lia ZifyBool ZifyNat ZifyN Field.
From Verif Require Import Base Field PField UtilsModel UtilsProps Power TurboModel TurboSpec TurboProofs TurboHonest TurboKit TurboEmit
  RescueModel RescueSpec RescueProofs RescueLemmas XfrModel XfrSpec MixModel MixSpec MixProofs MixLemmas
  AxfrModel AxfrSpec AxfrProofs AxfrHonest AxfrLemmas AxfrProps FoldModel FoldLemmas SimModel SecpPrime
  NoteProofs AfoldModel AfoldSpec AfoldHonest AfoldRun AfoldWhole AfoldBind.
Import ListNotations.
Local Open Scope F_scope.

Lemma bls_254s : (2 ^ 254 < pchar BLS)%Z. Proof. rewrite bls_pchar. reflexivity. Qed.
Lemma secp_pchar : pchar SecpQ = modulus secq256k1. Proof. reflexivity. Qed.
Notation in_cs := (prove_address_folding_in_cs BLS SecpQ bls_rescue gadget_alpha_inv).
Notation verifier_input := (prepare_verifier_input BLS SecpQ).
Notation comm_of := (inspection_comm BLS bls_rescue).
Notation fold_wit := (fold_witness BLS SecpQ).
Notation fold_stmt := (folds BLS SecpQ bls_rescue).

(** ** Soundness of the gadget *)
(** C62 (partial: only for assignments with zero in variable 0, see C14; and the
    numbers [X], [Y] inside [folds] are below 2^256, not below the modulus).  Take a
    circuit to which the gadget was added, with whatever witness.  Every assignment
    of the enlarged circuit satisfies the old one and adds public values at the end;
    if these are the ones the verifier prepares from a commitment, responses and
    challenges, the keys held by the key variables satisfy the folding statement for
    them. *)
Theorem C62_circuit_sound_partial :
  forall (w : fold_wit) pk sk c c', (2 <= nvars c)%nat -> in_cs pk sk w c = Ok (tt, c') ->
  forall a, sat c' a -> sat c a /\ exists vs, pub_values a c' = pub_values a c ++ vs /\
    (a 0%nat = 0 -> forall comm resp beta lambda, verifier_input comm resp beta lambda = Ok vs ->
     fold_stmt (vpk BLS a pk) (vsk BLS a sk) comm resp beta lambda).
Proof.
  intros w pk sk c c' H2 E a Hs.
  destruct (fold_sound_pub BLS SecpQ bls_254s bls_rescue bls_rescue_ok gadget_alpha_inv gadget_exp_inv secp_pchar w pk sk c _ E H2) as [_ S].
  exact (S a Hs).
Qed.
Print Assumptions C62_circuit_sound_partial.

(** C62: the inspection commitment binds: the same value for two lists of three data
    and three randomizers of 256 bits means the same data and randomizers, or an
    explicit collision of the hash. *)
Theorem C62_commitment_binding :
  forall data rhos data' rhos' r r' comm, length data = length data' -> length rhos = length rhos' ->
  Forall (fun z => 0 <= z < 2 ^ 256)%Z (data ++ rhos) -> Forall (fun z => 0 <= z < 2 ^ 256)%Z (data' ++ rhos') ->
  comm_of data rhos r = Ok comm -> comm_of data' rhos' r' = Ok comm ->
  (data = data' /\ rhos = rhos' /\ r = r') \/
  Exists (collide BLS Hash) (combine (comm_inputs BLS bls_rescue data rhos r) (comm_inputs BLS bls_rescue data' rhos' r')).
Proof. exact (comm_binding BLS bls_254s bls_rescue). Qed.
Print Assumptions C62_commitment_binding.

(** ** The challenges *)
Section Challenges.
Context (K : PField).
Add Field Kch : (f_th K).
Definition combine3 (z0 z1 z2 lambda : K) : K := z0 + z1 * lambda + z2 * lambda * lambda.
Lemma lambda_step (x y s rx ry rs z0 z1 z2 beta l : K) :
  combined_equation x y s rx ry rs (combine3 z0 z1 z2 l) beta l ->
  (beta * x + rx - z0) + l * (beta * y + ry - z1) + l * l * (beta * s + rs - z2) = 0.
Proof.
  unfold combined_equation, combine3. intros E.
  transitivity ((beta * x + rx) + l * (beta * y + ry) + l * l * (beta * s + rs) - (z0 + z1 * l + z2 * l * l)); [ring|]. rewrite E. ring.
Qed.
Lemma lambda_three x y s rx ry rs (z0 z1 z2 beta l1 l2 l3 : K) : l1 <> l2 -> l1 <> l3 -> l2 <> l3 ->
  (forall l, In l [l1; l2; l3] -> combined_equation x y s rx ry rs (combine3 z0 z1 z2 l) beta l) ->
  beta * x + rx = z0 /\ beta * y + ry = z1 /\ beta * s + rs = z2.
Proof.
  intros D1 D2 D3 E.
  destruct (quadratic K (beta * x + rx - z0) (beta * y + ry - z1) (beta * s + rs - z2) l1 l2 l3 D1 D2 D3) as [A [B C]].
  1,2,3: apply lambda_step, E; cbn; auto.
  repeat split; now apply fsub_0.
Qed.
Lemma beta_two (x r z z' b b' : K) : b <> b' -> b * x + r = z -> b' * x + r = z' -> x = (z - z') / (b - b').
Proof. intros D <- <-. field. intros E. apply D. now apply fsub_0. Qed.
Lemma honest_equation (x y s rx ry rs beta l : K) :
  combined_equation x y s rx ry rs (combine3 (beta * x + rx) (beta * y + ry) (beta * s + rs) l) beta l.
Proof. unfold combined_equation, combine3. ring. Qed.
Lemma plus_one (z : K) : z <> z + 1.
Proof. intros E. apply (F_1_neq_0 (f_th K)). transitivity (z + 1 - z); [ring|]. rewrite <- E. ring. Qed.
Lemma two_lambdas (x y s rx ry rs beta l1 l2 : K) :
  combined_equation x y s rx ry rs (combine3 (beta * x + rx + l1 * l2) (beta * y + ry - (l1 + l2)) (beta * s + rs + 1) l1) beta l1 /\
  combined_equation x y s rx ry rs (combine3 (beta * x + rx + l1 * l2) (beta * y + ry - (l1 + l2)) (beta * s + rs + 1) l2) beta l2.
Proof. unfold combined_equation, combine3. split; ring. Qed.
End Challenges.

(** C62: the equation combined for three different values of lambda, the responses
    being the same, gives the three verification equations. *)
Theorem C62_three_lambdas :
  forall (x y s rx ry rs z0 z1 z2 beta l1 l2 l3 : SecpQ), l1 <> l2 -> l1 <> l3 -> l2 <> l3 ->
  (forall l z, In l [l1; l2; l3] -> combined_response SecpQ [z0; z1; z2] l = Ok z -> combined_equation x y s rx ry rs z beta l) ->
  beta * x + rx = z0 /\ beta * y + ry = z1 /\ beta * s + rs = z2.
Proof.
  intros x y s rx ry rs z0 z1 z2 beta l1 l2 l3 D1 D2 D3 E. apply (lambda_three SecpQ x y s rx ry rs z0 z1 z2 beta l1 l2 l3 D1 D2 D3).
  intros l Hl. apply E; [exact Hl|reflexivity].
Qed.
Print Assumptions C62_three_lambdas.

(** Two values of lambda do not suffice: other responses satisfy both combined
    equations. *)
Theorem C62_two_lambdas_insufficient :
  forall (x y s rx ry rs beta l1 l2 : SecpQ), exists z0 z1 z2, beta * s + rs <> z2 /\
  forall l z, In l [l1; l2] -> combined_response SecpQ [z0; z1; z2] l = Ok z -> combined_equation x y s rx ry rs z beta l.
Proof.
  intros x y s rx ry rs beta l1 l2.
  exists (beta * x + rx + l1 * l2), (beta * y + ry - (l1 + l2)), (beta * s + rs + 1). split; [apply (plus_one SecpQ)|].
  intros l z Hl E. apply Ok_inj in E. subst z. destruct Hl as [<-|[<-|[]]]; apply (two_lambdas SecpQ).
Qed.
Print Assumptions C62_two_lambdas_insufficient.

(** C62: two accepted beta with the same commitment reveal the data: the responses
    determine each of them. *)
Theorem C62_two_betas :
  forall (x y s rx ry rs z0 z1 z2 z0' z1' z2' b b' : SecpQ), b <> b' ->
  b * x + rx = z0 -> b * y + ry = z1 -> b * s + rs = z2 ->
  b' * x + rx = z0' -> b' * y + ry = z1' -> b' * s + rs = z2' ->
  x = (z0 - z0') / (b - b') /\ y = (z1 - z1') / (b - b') /\ s = (z2 - z2') / (b - b').
Proof. intros x y s rx ry rs z0 z1 z2 z0' z1' z2' b b' D E0 E1 E2 E0' E1' E2'. repeat split; eapply (beta_two SecpQ); eassumption. Qed.
Print Assumptions C62_two_betas.

(** ** Extraction *)
(** An opening of the folding statement: data, randomizers and hash randomizer. *)
Definition opens (p : BLS * BLS * BLS) (s : BLS * BLS) (comm : BLS) (resp : list SecpQ) (beta lambda : SecpQ) (o : list Z * list Z * BLS) : Prop :=
  let '(data, rhos, r) := o in
  exists X Y RX RY RS, data = [X; Y; sk_number s] /\ rhos = [RX; RY; RS] /\
    Forall (fun z => 0 <= z < 2 ^ 256)%Z [X; Y; RX; RY; RS] /\ sk_packed s /\ (sk_number s < key_order)%Z /\
    pk_number p = (X + 2 ^ 256 * Y)%Z /\ comm_of data rhos r = Ok comm /\
    exists z, combined_response SecpQ resp lambda = Ok z /\
      combined_equation (fofZ X) (fofZ Y) (fofZ (sk_number s)) (fofZ RX) (fofZ RY) (fofZ RS) z beta lambda.
Theorem C62_statement_opens : forall p s comm resp beta lambda, fold_stmt p s comm resp beta lambda -> exists o, opens p s comm resp beta lambda o.
Proof.
  intros p s comm resp beta lambda [_ [HS [X [Y [RX [RY [RS [r [HF [E1 [E2 [E3 E4]]]]]]]]]]]].
  exists ([X; Y; sk_number s], [RX; RY; RS], r). exists X, Y, RX, RY, RS. repeat (split; [first [reflexivity|assumption]|]). exact E4.
Qed.
Print Assumptions C62_statement_opens.
Definition inputs_of (o : list Z * list Z * BLS) := comm_inputs BLS bls_rescue (fst (fst o)) (snd (fst o)) (snd o).

Lemma forall_or {A} (Q : Prop) (R : A -> Prop) l : (forall x, In x l -> R x \/ Q) -> (forall x, In x l -> R x) \/ Q.
Proof.
  induction l as [|x l IH]; intros H; [left; intros ? []|].
  destruct (H x (or_introl eq_refl)) as [Hx|]; [|now right].
  destruct IH as [IH|]; [intros y Hy; apply H; now right| |now right].
  left. intros y [<-|Hy]; auto.
Qed.
Lemma order_below : (key_order < 2 ^ 256)%Z. Proof. reflexivity. Qed.
Lemma sk_number_pos (s : BLS * BLS) : (0 <= sk_number s)%Z.
Proof. unfold sk_number. pose proof (toZ_range BLS (fst s)). pose proof (toZ_range BLS (snd s)). lia. Qed.
Lemma opens_range p s comm resp beta lambda o : opens p s comm resp beta lambda o ->
  length (fst (fst o)) = 3%nat /\ length (snd (fst o)) = 3%nat /\ Forall (fun z => 0 <= z < 2 ^ 256)%Z (fst (fst o) ++ snd (fst o)) /\
  comm_of (fst (fst o)) (snd (fst o)) (snd o) = Ok comm.
Proof.
  destruct o as [[data rhos] r]. intros [X [Y [RX [RY [RS [-> [-> [HF [HS [HO [_ [HC _]]]]]]]]]]]]. cbn [fst snd].
  repeat split; [|exact HC]. pose proof order_below. pose proof (sk_number_pos s).
  inversion_clear HF as [|? ? H1 HF1]. inversion_clear HF1 as [|? ? H2 HF2]. repeat constructor; try apply H1; try apply H2; try lia;
    rewrite Forall_forall in HF2; apply HF2; cbn; auto.
Qed.

(** C62: six openings of one commitment, under two values of beta and three of lambda
    for each, come from one pair of keys, whose public coordinates and secret number
    the responses determine; or two of them exhibit a collision of the hash.  (The
    responses depend on beta only: they are fixed before lambda is drawn.) *)
Theorem C62_extraction :
  forall comm resp b b' l1 l2 l3 p s (o : SecpQ -> SecpQ -> list Z * list Z * BLS),
  b <> b' -> l1 <> l2 -> l1 <> l3 -> l2 <> l3 ->
  (forall beta l, In beta [b; b'] -> In l [l1; l2; l3] -> opens (p beta l) (s beta l) comm (resp beta) beta l (o beta l)) ->
  (exists beta l beta' l', In beta [b; b'] /\ In beta' [b; b'] /\ In l [l1; l2; l3] /\ In l' [l1; l2; l3] /\
    Exists (collide BLS Hash) (combine (inputs_of (o beta l)) (inputs_of (o beta' l')))) \/
  exists X Y W z0 z1 z2 rest z0' z1' z2' rest',
    (forall beta l, In beta [b; b'] -> In l [l1; l2; l3] -> pk_number (p beta l) = (X + 2 ^ 256 * Y)%Z /\ sk_number (s beta l) = W) /\
    (0 <= X < 2 ^ 256)%Z /\ (0 <= Y < 2 ^ 256)%Z /\ (0 <= W < key_order)%Z /\
    resp b = z0 :: z1 :: z2 :: rest /\ resp b' = z0' :: z1' :: z2' :: rest' /\
    fofZ X = (z0 - z0') / (b - b') /\ fofZ Y = (z1 - z1') / (b - b') /\ fofZ W = (z2 - z2') / (b - b').
Proof.
  intros comm resp b b' l1 l2 l3 p s o Db D1 D2 D3 H.
  set (Q := exists beta l beta' l', In beta [b; b'] /\ In beta' [b; b'] /\ In l [l1; l2; l3] /\ In l' [l1; l2; l3] /\
    Exists (collide BLS Hash) (combine (inputs_of (o beta l)) (inputs_of (o beta' l')))).
  assert (A : forall t, In t (list_prod [b; b'] [l1; l2; l3]) -> o (fst t) (snd t) = o b l1 \/ Q).
  { intros [beta l] Ht. apply in_prod_iff in Ht. destruct Ht as [Hb Hl]. cbn [fst snd].
    destruct (opens_range _ _ _ _ _ _ _ (H beta l Hb Hl)) as [L1 [L2 [L3 L4]]].
    destruct (opens_range _ _ _ _ _ _ _ (H b l1 (or_introl eq_refl) (or_introl eq_refl))) as [M1 [M2 [M3 M4]]].
    destruct (C62_commitment_binding _ _ _ _ _ _ _ (eq_trans L1 (eq_sym M1)) (eq_trans L2 (eq_sym M2)) L3 M3 L4 M4) as [[E1 [E2 E3]]|C].
    - left. destruct (o beta l) as [[d rh] r], (o b l1) as [[d' rh'] r']. cbn in *. congruence.
    - right. exists beta, l, b, l1. repeat (split; [first [assumption|now left]|]). exact C. }
  apply forall_or in A. destruct A as [A|A]; [|now left]. right.
  destruct (o b l1) as [[data rhos] r] eqn:Eo.
  pose proof (H b l1 (or_introl eq_refl) (or_introl eq_refl)) as H0. rewrite Eo in H0.
  destruct H0 as [X [Y [RX [RY [RS [Ed [Er [HF [_ [HO _]]]]]]]]]].
  remember (sk_number (s b l1)) as W eqn:EW.
  assert (G : forall beta l, In beta [b; b'] -> In l [l1; l2; l3] ->
    pk_number (p beta l) = (X + 2 ^ 256 * Y)%Z /\ sk_number (s beta l) = W /\
    exists z, combined_response SecpQ (resp beta) l = Ok z /\ combined_equation (fofZ X) (fofZ Y) (fofZ W) (fofZ RX) (fofZ RY) (fofZ RS) z beta l).
  { intros beta l Hb Hl. pose proof (H beta l Hb Hl) as H1. specialize (A (beta, l)). cbn [fst snd] in A. rewrite A in H1 by now apply in_prod.
    destruct H1 as [X1 [Y1 [RX1 [RY1 [RS1 [Ed1 [Er1 [_ [_ [_ [E1 [_ E2]]]]]]]]]]]].
    rewrite Ed in Ed1. rewrite Er in Er1. 
    assert (E3 : sk_number (s beta l) = W) by (injection Ed1; intros; now symmetry).
    rewrite E3 in E2. split; [|split; [exact E3|]]; injection Ed1; injection Er1; intros; subst; assumption. }
  assert (T : forall beta, In beta [b; b'] -> exists z0 z1 z2 rest, resp beta = z0 :: z1 :: z2 :: rest /\
    beta * fofZ X + fofZ RX = z0 /\ beta * fofZ Y + fofZ RY = z1 /\ beta * fofZ W + fofZ RS = z2).
  { intros beta Hb. destruct (G beta l1 Hb (or_introl eq_refl)) as [_ [_ [z [Ez _]]]].
    destruct (resp beta) as [|z0 [|z1 [|z2 rest]]] eqn:E; rewrite ?E in Ez; try discriminate Ez. exists z0, z1, z2, rest. split; [reflexivity|].
    apply (C62_three_lambdas (fofZ X) (fofZ Y) (fofZ W) (fofZ RX) (fofZ RY) (fofZ RS) z0 z1 z2 beta l1 l2 l3 D1 D2 D3). intros l z' Hl Ez'.
    destruct (G beta l Hb Hl) as [_ [_ [z'' [Ez'' C]]]]. rewrite E in Ez''. cbn [combined_response] in Ez', Ez''.
    apply Ok_inj in Ez'. apply Ok_inj in Ez''. subst z' z''. exact C. }
  destruct (T b (or_introl eq_refl)) as [z0 [z1 [z2 [rest [R [T0 [T1 T2]]]]]]].
  destruct (T b' (or_intror (or_introl eq_refl))) as [z0' [z1' [z2' [rest' [R' [T0' [T1' T2']]]]]]].
  destruct (C62_two_betas _ _ _ _ _ _ _ _ _ _ _ _ b b' Db T0 T1 T2 T0' T1' T2') as [F0 [F1 F2]].
  inversion_clear HF as [|? ? HX HF1]. inversion_clear HF1 as [|? ? HY HF2].
  exists X, Y, W, z0, z1, z2, rest, z0', z1', z2', rest'.
  split; [intros beta l Hb Hl; destruct (G beta l Hb Hl) as [G1 [G2 _]]; auto|].
  repeat (split; [first [assumption|split; [subst W; apply sk_number_pos|assumption]]|]). exact F2.
Qed.
Print Assumptions C62_extraction.

(** ** Building the proof *)
(** C62: with a witness whose secret key is 32 bytes below the order, which has three
    randomizers, and whose responses satisfy the combined equation, building never
    panics, whatever the circuit and the key variables. *)
Definition honest_fold (x y : SecpQ) (skb : list N) (rx ry rs : SecpQ) (r comm : BLS) (beta lambda : SecpQ) : fold_wit :=
  let s : SecpQ := fofZ (Z.of_N (le_value skb)) in
  mkFw x y skb [rx; ry; rs] r comm [beta * x + rx; beta * y + ry; beta * s + rs] beta lambda.
Definition key_bytes (skb : list N) : Prop :=
  length skb = 32%nat /\ Forall (fun b => b < 256)%N skb /\ (Z.of_N (le_value skb) < key_order)%Z.
Lemma honest_builds x y skb rx ry rs r comm beta lambda : key_bytes skb -> witness_builds BLS SecpQ (honest_fold x y skb rx ry rs r comm beta lambda).
Proof.
  intros [L [B O]]. split.
  - repeat split; [exact L|exact B|]. unfold key_order in O. cbn [fw_sk honest_fold]. lia.
  - exists rx, ry, rs, []. eexists. repeat (split; [reflexivity|]). apply honest_equation.
Qed.
Theorem C62_honest_never_panics :
  forall x y skb rx ry rs r comm beta lambda, key_bytes skb ->
  forall pk sk c, exists c', in_cs pk sk (honest_fold x y skb rx ry rs r comm beta lambda) c = Ok (tt, c').
Proof.
  intros x y skb rx ry rs r comm beta lambda Hk pk sk c.
  pose proof (folding_ok BLS SecpQ bls_254s bls_rescue gadget_alpha_inv secp_pchar _ pk sk (honest_builds x y skb rx ry rs r comm beta lambda Hk) c) as E.
  destruct (folding _ _ _ _ _ _ _ c) as [[] c']. now exists c'.
Qed.
Print Assumptions C62_honest_never_panics.
(** The key pair and its folding data: [bx], [by_] are the 32 bytes of the coordinates
    of the public key, [skb] those of the secret key, and the witness is the honest
    one for the inspection commitment of these data. *)
Definition honest_keys (k : keypair BLS) (x y : SecpQ) (skb : list N) (rx ry rs : SecpQ) (r comm : BLS) : Prop :=
  key_bytes skb /\
  (exists bx by_, length bx = 32%nat /\ length by_ = 32%nat /\ Forall (fun b => b < 256)%N bx /\ Forall (fun b => b < 256)%N by_ /\
    Z.of_N (le_value bx) = toZ x /\ Z.of_N (le_value by_) = toZ y /\ get_public_key_scalars BLS bx by_ = Ok (kp_pk BLS k)) /\
  get_secret_key_scalars BLS skb = Ok (kp_sk BLS k) /\
  comm_of [toZ x; toZ y; Z.of_N (le_value skb)] [toZ rx; toZ ry; toZ rs] r = Ok comm.
Lemma honest_keys_witness k x y skb rx ry rs r comm beta lambda : honest_keys k x y skb rx ry rs r comm ->
  honest_witness BLS SecpQ bls_rescue (honest_fold x y skb rx ry rs r comm beta lambda) (kp_pk BLS k) (kp_sk BLS k).
Proof.
  intros [Hk [[bx [by_ [L1 [L2 [B1 [B2 [V1 [V2 E]]]]]]]] [Es Ec]]].
  destruct (public_scalars_value BLS bls_254s bx by_ (kp_pk BLS k) L1 L2 B1 B2 E) as [P1 P2].
  split; [now apply honest_builds|]. split; [exact Es|]. split; [exact P1|]. split; [rewrite P2, V1, V2; reflexivity|]. exact Ec.
Qed.

(** C62: the honest prover is accepted: in a satisfied circuit where the key variables
    hold the scalars of the key pair, the gadget is built without panic, the computed
    assignment still satisfies the circuit and the public values added are exactly
    those the verifier prepares. *)
Theorem C62_honest_prover_accepted :
  forall k x y skb rx ry rs r comm beta lambda, honest_keys k x y skb rx ry rs r comm ->
  forall pk sk c, Inv c -> has_pk BLS c pk (kp_pk BLS k) -> has_sk BLS c sk (kp_sk BLS k) ->
  let w := honest_fold x y skb rx ry rs r comm beta lambda in
  exists c' vs, in_cs pk sk w c = Ok (tt, c') /\ sat c' (val c') /\ conv (val c') /\
    verifier_input comm (fw_resp w) beta lambda = Ok vs /\
    pub_values (val c') c' = pub_values (val c) c ++ vs.
Proof.
  intros k x y skb rx ry rs r comm beta lambda Hk pk sk c HI Hpk Hsk w.
  destruct (folding_honest BLS SecpQ bls_254s bls_rescue bls_rescue_ok gadget_alpha_inv gadget_exp_inv secp_pchar w _ _ pk sk c
    (honest_keys_witness k x y skb rx ry rs r comm beta lambda Hk) HI Hpk Hsk) as [c' [vs [E [[_ [_ [C [_ S]]]] [_ [V PV]]]]]].
  exists c', vs. repeat (split; [assumption|]). exact PV.
Qed.
Print Assumptions C62_honest_prover_accepted.

(** ** The transfer circuit with the real gadget *)
Notation fold_gadget := (folding BLS SecpQ bls_rescue gadget_alpha_inv).
(** [fold_gadget w] is the gadget of the code for witnesses with which it does not
    panic. *)
Theorem C62_gadget_is_the_code : forall w pk sk c, witness_builds BLS SecpQ w -> in_cs pk sk w c = Ok (fold_gadget w pk sk c).
Proof. intros w pk sk c H. exact (folding_ok BLS SecpQ bls_254s bls_rescue gadget_alpha_inv secp_pchar w pk sk H c). Qed.
Print Assumptions C62_gadget_is_the_code.

(** C62 and C58 (partial: variables 0 and 1 must hold zero and one): an accepted
    assignment of the transfer circuit, built with any witness that builds, whose last
    public values are those of a folding instance, is a transfer whose one key pair
    satisfies the folding statement for that instance. *)
Theorem C62_transfer_sound_partial :
  forall (fw : fold_wit) payers payees k fee ft (w : nat -> BLS), witness_builds BLS SecpQ fw ->
  payers <> [] -> (Z.of_nat (length payers) <= 2 ^ 100)%Z -> (Z.of_nat (length payees) <= 2 ^ 100)%Z ->
  sat (circuit (fold_gadget fw) payers payees k fee ft) w -> w 0%nat = 0 -> w 1%nat = 1 ->
  exists ins outs pk sk root fee' fv,
    map (fun s => length (sp_path s)) ins = map (fun p => length (p_path BLS p)) payers /\
    length outs = length payees /\
    pub_values w (circuit (fold_gadget fw) payers payees k fee ft) = public BLS Hash pk sk root ins outs fee' ++ fv /\
    well_formed BLS Hash pk root ins outs /\
    (u64f fee' -> conserves BLS ft ins outs fee') /\
    forall comm resp beta lambda, verifier_input comm resp beta lambda = Ok fv -> fold_stmt pk sk comm resp beta lambda.
Proof.
  intros fw payers payees k fee ft w HB Hne L1 L2 Hs W0 W1.
  destruct (C58_accepted_assignment_is_a_transfer_partial (fold_gadget fw) _
    (fun pk sk => folding_soundp BLS SecpQ bls_254s bls_rescue bls_rescue_ok gadget_alpha_inv gadget_exp_inv secp_pchar fw pk sk HB)
    payers payees k fee ft w Hne L1 L2 Hs W0 W1) as [ins [outs [pk [sk [root [fee' [fv [pkv [skv [A1 [A2 [A3 [A4 [A5 [A6 [A7 A8]]]]]]]]]]]]]]]].
  exists ins, outs, pk, sk, root, fee', fv. repeat (split; [assumption|]).
  cbn beta in A6. specialize (A6 W0). rewrite A7, A8 in A6. exact A6.
Qed.
Print Assumptions C62_transfer_sound_partial.

Lemma gadget_adds fw : adds_gates (fold_gadget fw).
Proof. intros pk sk. apply folding_adds. Qed.
Lemma gadget_avoids fw : forall pk sk, ok_pk not1 pk -> ok_sk not1 sk -> emits BLS (avoids_one BLS) (fold_gadget fw pk sk) (fun _ => True).
Proof. intros pk sk. apply folding_avoids. Qed.
Lemma gadget_run k fw : honest_witness BLS SecpQ bls_rescue fw (kp_pk BLS k) (kp_sk BLS k) ->
  folding_complete (fold_gadget fw) k /\
  exists vs, verifier_input (fw_comm fw) (fw_resp fw) (fw_beta fw) (fw_lambda fw) = Ok vs /\
    publishes BLS (fold_gadget fw) k vs.
Proof.
  intros H.
  assert (B : witness_builds BLS SecpQ fw) by apply H.
  assert (G : forall pk sk c, Inv c -> has_pk BLS c pk (kp_pk BLS k) -> has_sk BLS c sk (kp_sk BLS k) ->
    let c' := snd (fold_gadget fw pk sk c) in Inv c' /\ extends c c' /\
    exists vs, verifier_input (fw_comm fw) (fw_resp fw) (fw_beta fw) (fw_lambda fw) = Ok vs /\
      pub_values (val c') c' = pub_values (val c) c ++ vs).
  { intros pk sk c HI Hpk Hsk c'.
    destruct (folding_honest BLS SecpQ bls_254s bls_rescue bls_rescue_ok gadget_alpha_inv gadget_exp_inv secp_pchar fw _ _ pk sk c H HI Hpk Hsk)
      as [d [vs [E [I [X [V PV]]]]]].
    rewrite C62_gadget_is_the_code in E by exact B. apply Ok_inj in E. subst c'. rewrite E. cbn [snd].
    repeat (split; [assumption|]). exists vs. split; [exact V|exact PV]. }
  split.
  - intros pk sk c HI Hpk Hsk. destruct (G pk sk c HI Hpk Hsk) as [I [X _]]. split; assumption.
  - destruct B as [_ [rx [ry [rs [rest [z [_ [Ez _]]]]]]]]. unfold prepare_verifier_input at 1. rewrite Ez. cbn [rmap].
    eexists. split; [reflexivity|]. intros pk sk c HI Hpk Hsk. destruct (G pk sk c HI Hpk Hsk) as [_ [_ [vs [V PV]]]].
    cbn zeta in PV. rewrite PV. f_equal. unfold prepare_verifier_input in V. rewrite Ez in V. cbn [rmap] in V. symmetry. exact (Ok_inj _ _ V).
Qed.

(** C62 and C58, completeness: an honest transfer with honest folding data yields a
    satisfied circuit whose public inputs are exactly the verifier's: those of the note
    followed by those prepared from the folding instance. *)
Theorem C62_transfer_complete :
  forall (as_scalar : N -> BLS) k x y skb rx ry rs r comm beta lambda ins outs fee pre,
  honest_keys k x y skb rx ry rs r comm ->
  init_anon_xfr_note BLS bls_rescue as_scalar ins outs fee k = Ok pre ->
  Forall (genuine BLS bls_rescue as_scalar) ins -> Forall (fun r => (o_amount BLS r < 2 ^ 64)%N) outs ->
  In FEE_TYPE (map (o_type BLS) ins) -> incl (map (o_type BLS) outs) (map (o_type BLS) ins) ->
  (forall t, In t (map (o_type BLS) ins) -> t <> FEE_TYPE -> In t (map (o_type BLS) outs)) ->
  let fw := honest_fold x y skb rx ry rs r comm beta lambda in
  let c := circuit (fold_gadget fw) (pre_payers BLS pre) (pre_payees BLS pre) k fee (as_scalar FEE_TYPE) in
  sat c (val c) /\ conv (val c) /\
  exists fv, verifier_input comm (fw_resp fw) beta lambda = Ok fv /\
    pub_values (val c) c = pub_inputs BLS (pre_body BLS pre) (b_root BLS (pre_body BLS pre)) fv.
Proof.
  intros as_scalar k x y skb rx ry rs r comm beta lambda ins outs fee pre Hk H1 H2 H3 H4 H5 H6 fw c.
  destruct (gadget_run k fw (honest_keys_witness k x y skb rx ry rs r comm beta lambda Hk)) as [GC [vs [V GP]]].
  destruct (circuit_complete BLS bls_rescue bls_rescue_ok gadget_alpha_inv gadget_exp_inv bls_big as_scalar (fold_gadget fw) k
           (folding_complete_ha _ k GC) (gadget_adds fw) ins outs fee pre H1 H2 H3 H4 H5 H6) as [A [B [fv [C D]]]].
  split; [exact A|]. split; [exact B|]. exists vs. split; [exact V|]. rewrite <- (D vs GP). exact C.
Qed.
Print Assumptions C62_transfer_complete.

(** C62 and C14: the forgery of C14 carries over to the circuit of the code: with the
    real folding gadget and an honest folding witness for the forger's key, records of
    the forger can be turned into any 64-bit outputs, and the public inputs are the
    verifier's. *)
Theorem C62_transfer_forgery_refuted :
  forall k x y skb rx ry rs r comm beta lambda, honest_keys k x y skb rx ry rs r comm ->
  forall payers payees fee root ft, payers <> [] ->
  Forall (payer_ok BLS) payers -> Forall (fun q => (q_amount BLS q < 2 ^ 64)%N) payees ->
  Forall (fun p => in_tree BLS Hash (kp_pk BLS k) root (spend_val BLS p)) payers ->
  let fw := honest_fold x y skb rx ry rs r comm beta lambda in
  exists w fv, let c := circuit (fold_gadget fw) payers payees k fee ft in
    sat c w /\ w 0%nat = 0 /\ verifier_input comm (fw_resp fw) beta lambda = Ok fv /\
    pub_values w c =
      public BLS Hash (kp_pk BLS k) (kp_sk BLS k) root (map (spend_val BLS) payers) (map (output_val BLS) payees) (fofN fee) ++ fv.
Proof.
  intros k x y skb rx ry rs r comm beta lambda Hk payers payees fee root ft H1 H2 H3 H4 fw.
  destruct (gadget_run k fw (honest_keys_witness k x y skb rx ry rs r comm beta lambda Hk)) as [GC [vs [V GP]]].
  assert (S : forall pk sk, soundp BLS (fold_gadget fw pk sk) (fun _ => True) (fun _ _ _ => True)).
  { intros pk sk. eapply emits_soundp. apply gadget_adds. }
  destruct (circuit_forgeable BLS bls_rescue bls_rescue_ok gadget_alpha_inv gadget_exp_inv bls_big (fold_gadget fw) k
           (folding_complete_ha _ k GC) (fun _ _ _ _ => True) S (gadget_avoids fw) payers payees fee root ft H1 H2 H3 H4) as [w [fv [A [B [C D]]]]].
  exists w, vs. cbn zeta. split; [exact A|]. split; [exact B|]. split; [exact V|]. rewrite <- (D vs GP). exact C.
Qed.
Print Assumptions C62_transfer_forgery_refuted.

(** ** Non-vacuity: every key of 32 bytes below the order and every pair of coordinates
    have honest folding data, for all randomizers. *)
Lemma bytes_exist n : (n < 2 ^ 256)%N -> exists bs, length bs = 32%nat /\ Forall (fun b => b < 256)%N bs /\ le_value bs = n.
Proof.
  intros H. destruct (le_bytes_value 32 n H) as [E [B L]]. exists (le_bytes 32 n). split; [exact L|]. split; [exact B|].
  apply (NoteProofs.le_value_bytes 32 n H).
Qed.
Theorem C62_honest_keys_exist :
  forall x y skb rx ry rs r, key_bytes skb -> exists k comm, honest_keys k x y skb rx ry rs r comm.
Proof.
  intros x y skb rx ry rs r Hk.
  assert (T : forall z : SecpQ, exists bs, length bs = 32%nat /\ Forall (fun b => b < 256)%N bs /\ Z.of_N (le_value bs) = toZ z).
  { intros z. pose proof (toZ_range SecpQ z) as R. rewrite secp_pchar in R.
    assert (M : (modulus secq256k1 < 2 ^ 256)%Z) by reflexivity.
    destruct (bytes_exist (Z.to_N (toZ z))) as [bs [L [B E]]]; [change (2 ^ 256)%N with (Z.to_N (2 ^ 256)); lia|].
    exists bs. repeat (split; [assumption|]). rewrite E. lia. }
  destruct (T x) as [bx [L1 [B1 V1]]]. destruct (T y) as [by_ [L2 [B2 V2]]].
  destruct (comm_ok BLS bls_rescue (toZ x) (toZ y) (Z.of_N (le_value skb)) (toZ rx) (toZ ry) (toZ rs) r) as [comm Ec].
  assert (Ep : exists p, get_public_key_scalars BLS bx by_ = Ok p).
  { unfold get_public_key_scalars, scalar_from_bytes. rewrite !firstn_length, !skipn_length, !app_length, L1, L2. cbn [Nat.ltb Nat.leb Nat.add Nat.sub Nat.min bind]. eexists. reflexivity. }
  assert (Es : exists s, get_secret_key_scalars BLS skb = Ok s).
  { destruct Hk as [L _]. unfold get_secret_key_scalars, scalar_from_bytes. rewrite !firstn_length, !skipn_length, L. cbn [Nat.ltb Nat.leb Nat.sub Nat.min bind]. eexists. reflexivity. }
  destruct Ep as [p Ep]. destruct Es as [s Es]. exists (mkKp BLS p s), comm.
  split; [exact Hk|]. split; [|split; [exact Es|exact Ec]]. exists bx, by_. repeat (split; [assumption|]). exact Ep.
Qed.
Print Assumptions C62_honest_keys_exist.
Example C62_case : key_bytes (repeat 1%N 32) /\ ~ key_bytes (repeat 255%N 32) /\ ~ key_bytes (repeat 1%N 31).
Proof.
  repeat split; try reflexivity; try (repeat constructor; fail).
  - intros [_ [_ H]]. vm_compute in H. discriminate.
  - intros [H _]. discriminate.
Qed.
