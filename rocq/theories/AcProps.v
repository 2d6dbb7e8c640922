(** C24-C26: anonymous credentials and their confidential disclosure. *)
From Coq Require Import List Arith NArith ZArith Bool Lia Field Ring.
From Verif Require Import Base Field PField Zp AcModel AcSpec AcProofs.
Import ListNotations.
Local Open Scope F_scope.

Section Props.
Context {F : Field} {G1 G2 GT : Mod F}.
Context (e : G1 -> G2 -> GT) (base1 : G1) (base2 : G2) (BL : bilinear e).
Add Field Fap : (f_th F).
Notation rng := (rng (F := F)).
Notation oracle := (oracle (F := F) (G1 := G1) (G2 := G2)).
Notation attribute := (attribute (F := F)).
Notation verify_open := (verify_open e base1 base2).
Notation check_comm := (check_comm e base1 base2).
Notation open_comm := (open_comm base1 base2).
Notation commit := (commit base1 base2).
Notation open_credential := (open_credential base1 base2).
Notation confidential_open_comm := (confidential_open_comm base1 base2).
Notation confidential_verify_open := (confidential_verify_open e base1 base2).

Section Honest.
Context (x z : F) (g1 : G1) (g2 : G2) (ys : list F) (sk : F).
Let isk := fst (issuer_keygen x z g1 g2 ys).
Let ipk := snd (issuer_keygen x z g1 g2 ys).
Let usk := fst (user_keygen ipk sk).
Let upk := snd (user_keygen ipk sk).

Lemma grant_ok u attrs : length attrs = length ys -> exists s, grant_credential u isk upk attrs = Ok s.
Proof.
  intros L. unfold grant_credential, isk, issuer_keygen. cbn [fst sk_y]. rewrite L, Nat.eqb_refl. cbn [negb]. eexists. reflexivity.
Qed.
(** The issuer signs as many attributes as its key has and refuses other numbers. *)
Theorem C24_grant u attrs : length attrs = length ys ->
  grant_credential u isk upk attrs = Ok (mkSig (u *: g1)%M (u * (x + z * sk + dot attrs ys) *: g1)%M).
Proof.
  intros L. destruct (grant_ok u attrs L) as [s E]. rewrite E.
  destruct (granted e BL x z g1 g2 ys sk u attrs s (mkRand 0 0) E) as [_ [H _]]. now rewrite H.
Qed.
Theorem C24_grant_wrong_number u attrs : length attrs <> length ys -> grant_credential u isk upk attrs = Err.
Proof.
  intros L. unfold grant_credential, isk, issuer_keygen. cbn [fst sk_y].
  destruct (Nat.eqb_spec (length ys) (length attrs)) as [E|]; [congruence|reflexivity].
Qed.
(** What the issuer signs passes the public signature check. *)
Theorem C24_grant_valid u attrs s : grant_credential u isk upk attrs = Ok s -> signature_on e ipk s usk attrs.
Proof.
  intros E. destruct (granted e BL x z g1 g2 ys sk u attrs s (mkRand 1 0) E) as [_ [_ H]].
  unfold signature_on, unmask, comm_new in *. cbn [sigma1 sigma2 rd_r rd_t] in H. fold ipk in H.
  replace (1 *: sigma1 s)%M with (sigma1 s) in H by module_eq.
  replace (1 *: (sigma2 s + 0 *: sigma1 s) - 0 *: sigma1 s)%M with (sigma2 s) in H by module_eq. exact H.
Qed.

(** Every opening of every commitment to every granted credential is accepted. *)
Theorem C24_disclosure_accepted chal (g : rng) u attrs s rd map_ :
  grant_credential u isk upk attrs = Ok s -> length map_ = length attrs ->
  exists pf, open_comm chal g usk (mkCred s attrs ipk) (comm_new s rd) rd map_ = Ok pf /\
    verify_open chal ipk (comm_new s rd) pf (disclosed attrs map_) = Ok tt.
Proof.
  intros E L. destruct (granted e BL x z g1 g2 ys sk u attrs s rd E) as [LY [_ S]].
  unfold AcModel.open_comm. cbn [c_attrs c_ipk]. rewrite L, Nat.eqb_refl. cbn [negb].
  apply (honest_pok e BL); try assumption. unfold ipk, issuer_keygen. cbn [snd yy2]. rewrite map_length. exact LY.
Qed.
(** The same for the two-step interface that also draws the randomness. *)
Theorem C24_open_credential_accepted chal (g : rng) u attrs s map_ :
  grant_credential u isk upk attrs = Ok s -> length map_ = length attrs ->
  exists cm pf, open_credential chal g usk (mkCred s attrs ipk) map_ = Ok (cm, pf) /\
    verify_open chal ipk cm pf (disclosed attrs map_) = Ok tt.
Proof.
  intros E L. unfold AcModel.open_credential, randomizer_gen. cbn [c_sig].
  destruct (C24_disclosure_accepted chal (skipr 2 g) u attrs s (mkRand (g 0%nat) (g 1%nat)) map_ E L) as [pf [P V]].
  exists (comm_new s (mkRand (g 0%nat) (g 1%nat))), pf. rewrite P. split; [reflexivity|exact V].
Qed.
Lemma hide_all (attrs : list F) : map (fun a => Hidden (Some a)) attrs = reveal attrs (repeat false (length attrs)) /\
  repeat (Hidden None) (length attrs) = disclosed attrs (repeat false (length attrs)).
Proof. unfold reveal, disclosed. induction attrs as [|a attrs [I1 I2]]; [now split|]. cbn. rewrite <- I1, <- I2. now split. Qed.
(** Every commitment with its proof passes the commitment check, for every message. *)
Theorem C24_commitment_accepted chal (g : rng) u attrs s rd m :
  grant_credential u isk upk attrs = Ok s ->
  exists pf, commit chal g usk (mkCred s attrs ipk) rd m = Ok (comm_new s rd, pf) /\
    check_comm chal ipk (comm_new s rd) pf m = Ok tt.
Proof.
  intros E. destruct (granted e BL x z g1 g2 ys sk u attrs s rd E) as [LY [_ S]].
  unfold AcModel.commit, AcModel.check_comm. cbn [c_attrs c_ipk c_sig]. destruct (hide_all attrs) as [-> H2].
  assert (NA : num_attrs ipk = length attrs) by (unfold num_attrs, ipk, issuer_keygen; cbn [snd yy2]; now rewrite map_length).
  rewrite NA, H2.
  destruct (honest_pok e BL chal (init_pok base1 base2 [Tag 1] ipk (comm_new s rd) ++ [Bytes m]) g usk ipk (comm_new s rd) (rd_t rd) attrs (repeat false (length attrs))) as [pf [P V]];
    [exact NA|apply repeat_length|exact S|].
  exists pf. rewrite P. split; [reflexivity|exact V].
Qed.
Theorem C24_commit_without_randomizer chal (g : rng) u attrs s m :
  grant_credential u isk upk attrs = Ok s ->
  exists pf rd, commit_without_randomizer base1 base2 chal g usk (mkCred s attrs ipk) m = Ok (comm_new s rd, pf, rd) /\
    check_comm chal ipk (comm_new s rd) pf m = Ok tt.
Proof.
  intros E. unfold commit_without_randomizer, randomizer_gen.
  destruct (C24_commitment_accepted chal (skipr 2 g) u attrs s (mkRand (g 0%nat) (g 1%nat)) m E) as [pf [P V]].
  exists pf, (mkRand (g 0%nat) (g 1%nat)). rewrite P. split; [reflexivity|exact V].
Qed.
(** The values handed to the verifier through the api are the credential's attributes. *)
Theorem C24_api_accepted chal (g : rng) u (attrs : list N) s rd map_ :
  grant_credential u isk upk (map fofN attrs) = Ok s -> length map_ = length attrs ->
  exists pf, open_comm chal g usk (mkCred s (map fofN attrs) ipk) (comm_new s rd) rd map_ = Ok pf /\
    ac_verify e base1 base2 chal ipk (map (fun ab : N * bool => if snd ab then Some (fst ab) else None) (combine attrs map_)) (comm_new s rd) pf = Ok tt.
Proof.
  intros E L. destruct (C24_disclosure_accepted chal g u (map fofN attrs) s rd map_ E) as [pf [P V]]; [now rewrite map_length|].
  exists pf. split; [exact P|]. unfold ac_verify.
  assert (X : map of_option (map (fun ab : N * bool => if snd ab then Some (fst ab) else None) (combine attrs map_)) = disclosed (F := F) (map fofN attrs) map_).
  { clear. revert map_. unfold disclosed. induction attrs as [|a attrs IH]; intros [|b m]; try reflexivity. cbn. rewrite IH. now destruct b. }
  rewrite X. exact V.
Qed.

(** Confidential disclosure: every honest one is accepted, and the ciphertexts decrypt to
    the selected attributes. *)
Theorem C26_disclosure_accepted chal (g : rng) u attrs s rd map_ ek m :
  grant_credential u isk upk attrs = Ok s -> length map_ = length attrs ->
  exists cts pf, confidential_open_comm chal g usk (mkCred s attrs ipk) (comm_new s rd) rd map_ ek m = Ok (cts, pf) /\
    confidential_verify_open chal ipk ek map_ (comm_new s rd) cts pf m = Ok tt /\
    forall dk, ek = (dk *: base1)%M -> Forall2 (decrypts dk base1) cts (selected attrs map_).
Proof.
  intros E L. destruct (granted e BL x z g1 g2 ys sk u attrs s rd E) as [LY [_ S]].
  assert (NA : length (yy2 ipk) = length attrs) by (unfold ipk, issuer_keygen; cbn [snd yy2]; now rewrite map_length).
  unfold AcModel.confidential_open_comm. cbn [c_attrs c_ipk]. rewrite L, Nat.eqb_refl. cbn [negb].
  destruct (enc_loop_selected base1 ek attrs map_ g) as [g' [EL RL]]. cbv zeta in EL, RL.
  set (rands := snd (fst (enc_loop base1 ek attrs map_ g))) in *. rewrite EL. clear EL.
  set (cts := map (fun ar => encrypt base1 ek (fst ar) (snd ar)) (combine (selected attrs map_) rands)).
  assert (MS : map snd (combine attrs map_) = map_ /\ map fst (combine attrs map_) = attrs).
  { clear - L. revert map_ L. induction attrs as [|a attrs IH]; intros [|b m] L; try discriminate; [now split|]. injection L as L. cbn. destruct (IH m L) as [-> ->]. now split. }
  destruct MS as [MS MF].
  assert (CL : length (combine attrs map_) = length attrs) by (rewrite combine_length; lia).
  unfold confidential_prove_pok.
  destruct (cac_loop_ok base1 ek (yy2 ipk) (combine attrs map_) (skipr 2 g') (g' 0%nat *: gen2 ipk + g' 1%nat *: zz2 ipk)%M) as [ra [rr [X [L1 L2]]]]; [lia|].
  rewrite X, MS in *. clear X. cbv zeta. set (cs := map (fun ar => encrypt base1 ek (fst ar) (snd ar)) (combine (selected ra map_) rr)).
  set (b := (g' 0%nat *: gen2 ipk + g' 1%nat *: zz2 ipk + weigh ra (yy2 ipk))%M).
  set (c := chal _). do 2 eexists. split; [reflexivity|].
  assert (SL : forall l : list F, length l = length attrs -> length (selected l map_) = revealed_count map_) by (intros l Hl; rewrite revealed_count_eq; apply selected_len; lia).
  pose proof (SL attrs eq_refl) as SA. pose proof (SL ra ltac:(lia)) as SR.
  assert (LC : length cts = revealed_count map_) by (unfold cts; rewrite map_length, combine_length; lia).
  assert (LS : length cs = revealed_count map_) by (unfold cs; rewrite map_length, combine_length; lia).
  assert (CB : (revealed_count map_ <= length attrs)%nat).
  { rewrite revealed_count_eq. clear - L. rewrite <- L. induction map_ as [|q m IH] in |- *; cbn; [lia|]. destruct (bool_dec q true); lia. }
  split.
  - unfold AcModel.confidential_verify_open, num_attrs. cbn [cm_ct resp_rands]. rewrite map_length, combine_length.
    replace (Nat.min (length rands) (length rr)) with (revealed_count map_) by lia. rewrite LC, LS, !Nat.eqb_refl, NA, L, Nat.eqb_refl.
    destruct (Nat.ltb_spec (length attrs) (revealed_count map_)); [lia|]. cbn [negb orb].
    unfold confidential_verify_pok. cbn [cac cm_ct resp_rands resp_attrs blinding]. fold b. fold c.
    rewrite filter_selected. rewrite <- MS at 2. rewrite (selected_map2 (fun a r => c * a + r)) by lia. rewrite MS, MF.
    unfold cts, cs. rewrite honest_ct by lia. cbn [bind].
    apply (verify_pok_iff e BL). cbn [resp_attrs resp_t resp_sk blinding].
    assert (RE : map (fun x0 : F * bool * F => c * fst (fst x0) + snd x0) (combine (combine attrs map_) ra) = map (fun p => c * fst p + snd p) (combine attrs ra)).
    { rewrite <- MF at 2. clear. generalize (combine attrs map_) ra. induction l as [|[a q] l IH]; intros [|r rb]; try reflexivity. cbn. now rewrite IH. }
    rewrite RE. unfold num_attrs. rewrite NA, all_hidden_scalars by (rewrite map_length, combine_length; lia). eexists. split; [reflexivity|].
    rewrite firstn_all2 by (rewrite map_length, combine_length; lia).
    rewrite (weigh_zip (fun a b => c * a + b) c 1) by (intros; try ring; lia). unfold b.
    destruct BL as [B1 [B2 [B3 B4]]].
    transitivity (e (sigma1 (comm_new s rd)) (c *: ((xx2 ipk + usk *: zz2 ipk + weigh attrs (yy2 ipk)) + rd_t rd *: gen2 ipk)))%M; [f_equal; module_eq|].
    rewrite B4, B3, B4. unfold signature_on, unmask in S. cbn [sigma1 sigma2] in S. fold ipk usk in S. 
    change sk with usk in S. rewrite S. unfold msub. rewrite B1, mopp_smul, B2, B2. module_eq.
  - intros dk Hd. clear - Hd SA RL. unfold cts. clear cts. generalize dependent rands. intros rands RL.
    revert rands RL. generalize (selected attrs map_). induction l as [|a l IH]; intros [|r rs] RL; try discriminate; cbn [combine map]; constructor.
    + unfold decrypts, encrypt. cbn [fst snd]. rewrite Hd. module_eq.
    + apply IH. now injection RL.
Qed.
End Honest.

(** A reveal map of another length is refused, also when asking for the attributes. *)
Theorem C24_wrong_map_refused chal (g : rng) usk cr cm rd map_ ek m : length map_ <> length (c_attrs cr) ->
  open_comm chal g usk cr cm rd map_ = Err /\ open_credential chal g usk cr map_ = Err /\
  get_revealed_attributes cr map_ = Err /\ confidential_open_comm chal g usk cr cm rd map_ ek m = Err.
Proof.
  intros L. unfold AcModel.open_credential, AcModel.open_comm, get_revealed_attributes, AcModel.confidential_open_comm. cbn.
  destruct (Nat.eqb_spec (length (c_attrs cr)) (length map_)); [congruence|].
  destruct (Nat.eqb_spec (length map_) (length (c_attrs cr))); [congruence|]. auto.
Qed.
Theorem C24_revealed_attributes (cr : credential G1 G2) map_ : length map_ = length (c_attrs cr) ->
  get_revealed_attributes cr map_ = Ok (selected (c_attrs cr) map_).
Proof. intros L. unfold get_revealed_attributes. rewrite L, Nat.eqb_refl. cbn [negb]. now rewrite filter_selected. Qed.
(** A credential object with more attributes than the issuer key has makes the prover panic. *)
Theorem C24_oversized_panics chal (g : rng) usk cr rd m : (num_attrs (c_ipk cr) < length (c_attrs cr))%nat ->
  commit chal g usk cr rd m = Panic.
Proof.
  intros L. unfold AcModel.commit, prove_pok. unfold num_attrs in L.
  assert (X : forall (ys : list G2) (attrs : list F) (g : rng) acc, (length ys < length attrs)%nat -> exists b gm g',
    blind_loop ys (map (fun a => Hidden (Some a)) attrs) g acc = Ok (b, gm, g') /\ length gm = length ys).
  { induction ys as [|y ys IH]; intros [|a attrs] g0 acc H; cbn [length] in H; try lia; cbn [map blind_loop].
    - do 3 eexists. split; reflexivity.
    - destruct (IH attrs (skipr 1 g0) (acc + g0 0%nat *: y)%M) as [b [gm [g' [-> H']]]]; [lia|]. cbn. do 3 eexists. split; [reflexivity|]. cbn. lia. }
  destruct (X (yy2 (c_ipk cr)) (c_attrs cr) (skipr 2 g) (g 0%nat *: gen2 (c_ipk cr) + g 1%nat *: zz2 (c_ipk cr))%M L) as [b [gm [g' [-> H]]]].
  cbn [bind fst snd]. cbv zeta.
  match goal with |- context [resp_loop ?c _ _] => assert (P : resp_loop c (map (fun a => Hidden (Some a)) (c_attrs cr)) gm = Panic) end.
  { rewrite <- H in L. clear - L. revert gm L. induction (c_attrs cr) as [|a l IH]; intros gm L; cbn [length map resp_loop] in *; [lia|].
    destruct gm as [|y gm]; [reflexivity|]. cbn in L. rewrite IH by lia. reflexivity. }
  now rewrite P.
Qed.

(** ** C25 *)
(** Exactly when a disclosure is accepted; the verifier never panics. *)
Theorem C25_exact chal p cm pf attrs : let c := chal (init_pok base1 base2 [Tag 2] p cm ++ [Com2 (blinding pf)]) in
  verify_open chal p cm pf attrs = Ok tt <-> exists l, attr_scalars c attrs (resp_attrs pf) = Ok l /\
    (e (sigma1 cm) (resp_t pf *: gen2 p + c *: xx2 p + resp_sk pf *: zz2 p - blinding pf + weigh l (yy2 p)) = c *: e (sigma2 cm) (gen2 p))%M.
Proof. apply (verify_pok_iff e BL). Qed.
Theorem C25_no_panic chal p cm pf attrs m : verify_open chal p cm pf attrs <> Panic /\ check_comm chal p cm pf m <> Panic.
Proof. split; apply (verify_pok_no_panic e). Qed.
(** Fewer responses than hidden attributes are refused. *)
Theorem C25_missing_responses_refused chal p cm pf attrs :
  (length (resp_attrs pf) < length (filter (fun a => match a with Hidden _ => true | _ => false end) attrs))%nat ->
  verify_open chal p cm pf attrs = Err.
Proof.
  intros L. unfold AcModel.verify_open, verify_pok.
  assert (X : forall c (q : list attribute) r, (length r < length (filter (fun a => match a with Hidden _ => true | _ => false end) q))%nat -> attr_scalars c q r = Err).
  { clear. intros c. induction q as [|[a|a] q IH]; intros r L; cbn in L |- *; [lia|now rewrite IH|]. destruct r as [|y r]; [reflexivity|]. cbn in L. rewrite IH by lia. reflexivity. }
  now rewrite X.
Qed.
(** Two accepted answers to different challenges for one commitment and one claim contain a
    signature, a user secret and attributes agreeing with the claim, and the signature passes
    the public check on them.  All three are computed from the answers by [revealed]. *)
Theorem C25_special_soundness chal chal' p cm pf pf' attrs :
  let c := chal (init_pok base1 base2 [Tag 2] p cm ++ [Com2 (blinding pf)]) in
  let c' := chal' (init_pok base1 base2 [Tag 2] p cm ++ [Com2 (blinding pf')]) in
  verify_open chal p cm pf attrs = Ok tt -> verify_open chal' p cm pf' attrs = Ok tt ->
  blinding pf = blinding pf' -> c <> c' ->
  let found := revealed_attrs c c' attrs (resp_attrs pf) (resp_attrs pf') in
  agrees attrs found /\
  signature_on e p (unmask cm (revealed c c' (resp_t pf) (resp_t pf'))) (revealed c c' (resp_sk pf) (resp_sk pf')) found.
Proof.
  cbv zeta. intros V V' B N. unfold AcModel.verify_open in V, V'.
  destruct (two_proofs e BL p cm pf pf' attrs _ _ N B V V') as [l [l' [E [E' [A S]]]]].
  rewrite (extract_revealed _ _ N _ _ _ _ _ E E') in A, S. split; [exact A|exact S].
Qed.
(** For a generated issuer key, what passes the public check on its first component is exactly
    what the issuer signs. *)
Theorem C25_signature_is_issued x z g1 (g2 : G2) ys s sk attrs u : (forall a, e a g2 = m0 -> a = m0) ->
  length attrs = length ys -> sigma1 s = (u *: g1)%M ->
  let keys := issuer_keygen x z g1 g2 ys in
  signature_on e (snd keys) s sk attrs <->
  grant_credential u (fst keys) (snd (user_keygen (snd keys) sk)) attrs = Ok s.
Proof.
  intros ND L U keys. split.
  - intros S. unfold keys. rewrite (C24_grant x z g1 g2 ys sk u attrs L). f_equal. destruct s as [s1 s2]. cbn [sigma1] in U. subst s1. f_equal.
    unfold signature_on, keys, issuer_keygen in S. cbn [sigma1 sigma2 snd xx2 zz2 yy2 gen2] in S. rewrite weigh_dot in S.
    destruct BL as [B1 [B2 [B3 B4]]].
    replace (x *: g2 + sk *: (z *: g2) + dot attrs ys *: g2)%M with ((x + z * sk + dot attrs ys) *: g2)%M in S by module_eq.
    rewrite B4, <- B2 in S. symmetry. apply (proj1 (msub_0 _ _)), ND. unfold msub. rewrite B1, mopp_smul, B2, <- S.
    replace ((x + z * sk + dot attrs ys) *: (u *: g1))%M with (u * (x + z * sk + dot attrs ys) *: g1)%M by module_eq. module_eq.
  - intros E. exact (C24_grant_valid x z g1 g2 ys sk u attrs s E).
Qed.

(** Refuted: the identity commitment is accepted with any attributes, and nobody signed them. *)
Theorem C25_identity_refuted chal (g : rng) p usk attrs rd map_ :
  length attrs = num_attrs p -> length map_ = length attrs ->
  exists pf, open_comm chal g usk (mkCred sig_default attrs p) (comm_new sig_default rd) rd map_ = Ok pf /\
    verify_open chal p (comm_new sig_default rd) pf (disclosed attrs map_) = Ok tt.
Proof.
  intros L1 L2. unfold AcModel.open_comm. cbn [c_attrs c_ipk]. rewrite L2, Nat.eqb_refl. cbn [negb].
  apply (honest_pok e BL); [unfold num_attrs in L1; congruence|exact L2|]. rewrite comm_default. apply (default_signature e BL).
Qed.
(** ... without any secret, for any proof, as long as there are enough responses; through the api too. *)
Theorem C25_identity_api_refuted chal p (attrs : list (option N)) b rt rsk :
  ac_verify e base1 base2 chal p attrs sig_default (mkPok b rt rsk (repeat 0 (length attrs))) = Ok tt.
Proof.
  unfold ac_verify, AcModel.verify_open. set (c := chal _).
  assert (X : forall (q : list (option N)) k, (length q <= k)%nat -> exists l, attr_scalars c (map of_option q) (repeat 0 k) = Ok l).
  { clear. induction q as [|[a|] q IH]; intros k L; cbn [map of_option attr_scalars]; [eexists; reflexivity| |]; cbn [length] in L.
    - destruct (IH k) as [l ->]; [lia|]. eexists; reflexivity.
    - destruct k as [|k]; [lia|]. cbn [repeat]. destruct (IH k) as [l ->]; [lia|]. eexists; reflexivity. }
  destruct (X attrs (length attrs) (le_n _)) as [l E]. apply (identity_pok e BL p c _ _ l). exact E.
Qed.
(** Refuted: the revealed attributes are not hashed. The owner of a credential picks any
    differences, then learns the challenge and claims attributes shifted by differences/challenge. *)
Theorem C25_late_attributes_refuted chal p cm t usk attrs delta : length attrs = length delta ->
  signature_on e p (unmask cm t) usk attrs ->
  let b := weigh delta (yy2 p) in
  let c := chal (init_pok base1 base2 [Tag 2] p cm ++ [Com2 b]) in
  c <> 0 ->
  verify_open chal p cm (mkPok b (c * t) (c * usk) []) (map (fun ad => Revealed (fst ad + snd ad / c)) (combine attrs delta)) = Ok tt.
Proof.
  intros L S b c N. unfold AcModel.verify_open. cbn [blinding]. fold c. apply (verify_pok_iff e BL). cbn [resp_attrs resp_t resp_sk blinding].
  exists (map (fun ad => c * fst ad + snd ad) (combine attrs delta)). split.
  - clear - N. generalize (combine attrs delta). induction l as [|[a d] l IH]; cbn; [reflexivity|]. rewrite IH. cbn. f_equal. f_equal. field. exact N.
  - rewrite (weigh_zip (fun a d => c * a + d) c 1) by (try exact L; intros; ring). destruct BL as [B1 [B2 [B3 B4]]]. unfold b.
    transitivity (e (sigma1 cm) (c *: ((xx2 p + usk *: zz2 p + weigh attrs (yy2 p)) + t *: gen2 p)))%M; [f_equal; module_eq|].
    rewrite B4, B3, B4. unfold signature_on, unmask in S. cbn [sigma1 sigma2] in S. rewrite S.
    unfold msub. rewrite B1, mopp_smul, B2, B2. module_eq.
Qed.
(** Refuted: claimed attributes beyond those of the issuer key are ignored. *)
Theorem C25_extra_attributes_refuted chal p cm pf attrs (extra : list F) : length attrs = num_attrs p ->
  verify_open chal p cm pf attrs = Ok tt -> verify_open chal p cm pf (attrs ++ map (fun a => Revealed a) extra) = Ok tt.
Proof.
  intros L V. unfold AcModel.verify_open in *. set (c := chal _) in *. apply (verify_pok_iff e BL) in V. apply (verify_pok_iff e BL).
  destruct V as [l [A V]]. exists (l ++ map (fun a => a * c) extra).
  assert (X : length l = length attrs /\ attr_scalars c (attrs ++ map (fun a => Revealed a) extra) (resp_attrs pf) = Ok (l ++ map (fun a => a * c) extra)).
  { clear - A. revert l A. generalize (resp_attrs pf). induction attrs as [|[a|a] attrs IH]; intros r l A; cbn in A |- *.
    - apply Ok_inj in A. subst l. split; [reflexivity|]. cbn. clear. induction extra as [|x extra IH]; cbn; [reflexivity|]. now rewrite IH.
    - apply bind_ok in A. destruct A as [k [A E]]. apply Ok_inj in E. subst l. destruct (IH _ _ A) as [L ->]. cbn. split; [now rewrite L|reflexivity].
    - destruct r as [|y r]; [discriminate|]. apply bind_ok in A. destruct A as [k [A E]]. apply Ok_inj in E. subst l. destruct (IH _ _ A) as [L ->]. cbn. split; [now rewrite L|reflexivity]. }
  destruct X as [X1 X2]. split; [exact X2|]. rewrite weigh_app by (unfold num_attrs in L; congruence). exact V.
Qed.

(** ** C26 *)
(** Numbers that do not match the reveal map are refused. *)
Theorem C26_count_mismatch_refused chal p ek map_ cm cts pf m :
  length map_ <> num_attrs p \/ length cts <> count_occ bool_dec map_ true \/
  length (cm_ct pf) <> count_occ bool_dec map_ true \/ length (resp_rands pf) <> count_occ bool_dec map_ true ->
  confidential_verify_open chal p ek map_ cm cts pf m = Err.
Proof.
  intros H. unfold AcModel.confidential_verify_open. rewrite revealed_count_eq.
  destruct (Nat.eqb_spec (length map_) (num_attrs p)); [|reflexivity]. cbn [negb].
  destruct (Nat.ltb_spec (num_attrs p) (length cts)); [reflexivity|].
  destruct (Nat.eqb_spec (length cts) (length (cm_ct pf))); [|reflexivity].
  destruct (Nat.eqb_spec (length cts) (length (resp_rands pf))); [|reflexivity].
  destruct (Nat.eqb_spec (length cts) (count_occ bool_dec map_ true)); [|reflexivity]. lia.
Qed.
(** Two accepted answers contain a signature on attributes of which the ciphertexts decrypt to
    the selected ones. *)
Theorem C26_special_soundness chal chal' p dk map_ cm cts pf pf' m :
  let ek := (dk *: base1)%M in
  let t := cac_init base1 base2 [Tag 3] p ek cm cts ++ [Bytes m] in
  let c := chal (t ++ ct_elems Com1 (cm_ct pf) ++ [Com2 (blinding (cac pf))]) in
  let c' := chal' (t ++ ct_elems Com1 (cm_ct pf') ++ [Com2 (blinding (cac pf'))]) in
  confidential_verify_open chal p ek map_ cm cts pf m = Ok tt ->
  confidential_verify_open chal' p ek map_ cm cts pf' m = Ok tt ->
  blinding (cac pf) = blinding (cac pf') -> cm_ct pf = cm_ct pf' -> c <> c' ->
  let found := revealed_attrs c c' (repeat (Hidden None) (num_attrs p)) (resp_attrs (cac pf)) (resp_attrs (cac pf')) in
  length found = num_attrs p /\
  signature_on e p (unmask cm (revealed c c' (resp_t (cac pf)) (resp_t (cac pf')))) (revealed c c' (resp_sk (cac pf)) (resp_sk (cac pf'))) found /\
  Forall2 (decrypts dk base1) cts (selected found map_).
Proof.
  cbv zeta. intros V V' B CC N. unfold AcModel.confidential_verify_open in V, V'. rewrite revealed_count_eq in V, V'.
  destruct (Nat.eqb_spec (length map_) (num_attrs p)) as [L|]; [|discriminate]. cbn [negb] in V, V'.
  destruct (Nat.ltb_spec (num_attrs p) (length cts)); [discriminate|].
  destruct (Nat.eqb_spec (length cts) (length (cm_ct pf))) as [L1|]; [|discriminate].
  destruct (Nat.eqb_spec (length cts) (length (cm_ct pf'))) as [L1'|]; [|discriminate].
  destruct (Nat.eqb_spec (length cts) (length (resp_rands pf))) as [L2|]; [|discriminate].
  destruct (Nat.eqb_spec (length cts) (length (resp_rands pf'))) as [L2'|]; [|discriminate].
  destruct (Nat.eqb_spec (length cts) (count_occ bool_dec map_ true)) as [L3|]; [|discriminate]. cbn [negb orb] in V, V'.
  unfold confidential_verify_pok in V, V'.
  set (c := chal _) in *. set (c' := chal' _) in *. rewrite !filter_selected in V, V'.
  destruct (verify_ciphertext base1 c _ _ _ _ _) as [[]| |] eqn:C; try discriminate.
  destruct (verify_ciphertext base1 c' _ _ _ _ _) as [[]| |] eqn:C'; try discriminate. cbn [bind] in V, V'.
  destruct (two_proofs e BL p cm _ _ _ _ _ N B V V') as [l [l' [A [A' [G S]]]]].
  rewrite <- (extract_revealed _ _ N _ _ _ _ _ A A').
  apply all_hidden_scalars_inv in A, A'. destruct A as [A ->], A' as [A' ->].
  split; [|split; [exact S|]].
  - assert (Q : forall (P : attribute -> F -> Prop) a b, Forall2 P a b -> length a = length b) by (induction 1; cbn; congruence); apply Q in G.
    rewrite repeat_length in G. symmetry; exact G.
  - rewrite selected_extract by (rewrite !firstn_length; lia). rewrite !selected_firstn by exact L. rewrite <- CC in C'.
    apply (ct_extract base1 dk c c' N cts (cm_ct pf) _ _ (resp_rands pf) (resp_rands pf')); try assumption; rewrite selected_len; lia.
Qed.
(** Refuted: with the identity commitment any attributes can be disclosed confidentially. *)
Theorem C26_identity_refuted chal (g : rng) x z (g1 : G1) (g2 : G2) ys usk attrs rd map_ ek m :
  length attrs = length ys -> length map_ = length attrs ->
  let p := snd (issuer_keygen x z g1 g2 ys) in
  exists cts pf, confidential_open_comm chal g usk (mkCred sig_default attrs p) (comm_new sig_default rd) rd map_ ek m = Ok (cts, pf) /\
    confidential_verify_open chal p ek map_ (comm_new sig_default rd) cts pf m = Ok tt /\
    forall dk, ek = (dk *: base1)%M -> Forall2 (decrypts dk base1) cts (selected attrs map_).
Proof.
  intros L1 L2 p. apply (C26_disclosure_accepted x z g1 g2 ys usk chal g 0 attrs sig_default rd map_ ek m); [|exact L2].
  rewrite (C24_grant x z g1 g2 ys usk 0 attrs L1). unfold sig_default. f_equal. f_equal; module_eq.
Qed.
End Props.

(** ** Non-vacuity: the field modulo 101 as its own groups, with multiplication as the pairing. *)
Section Examples.
Let n (x : Z) : P101 := fofZ x.
Let G := self_mod P101.
Let e (a b : G) : G := fmul (a : P101) b.
Add Field Fx101 : (f_th P101).
Example C24_bilinear : bilinear e.
Proof. unfold bilinear, e. cbn [mcar m0 madd smul self_mod G]. repeat split; intros; ring. Qed.
Let b1 : G := n 1.
Let keys := issuer_keygen (F := P101) (G1 := G) (G2 := G) (n 7) (n 9) (n 3 : G) (n 5 : G) [n 11; n 12; n 13].
Let ipk := snd keys.
Let user := user_keygen ipk (n 21).
Let attrs := [n 31; n 32; n 33].
Let draws (k : nat) : rng (F := P101) := fun i => n (Z.of_nat (i * i + k)).
Let ch (k : Z) : oracle (F := P101) (G1 := G) (G2 := G) := fun t => n (k + Z.of_nat (length t)).
Let rd := mkRand (n 17) (n 19).
Definition isok {T} (r : res T) : bool := match r with Ok _ => true | _ => false end.
Definition iserr {T} (r : res T) : bool := match r with Err => true | _ => false end.
(** The right attribute is accepted, a wrong one refused. *)
Example C24_case : match grant_credential (n 4) (fst keys) (snd user) attrs with
  | Ok s => let cm := comm_new s rd in
    match open_comm b1 b1 (ch 3) (draws 5) (fst user) (mkCred s attrs ipk) cm rd [true; false; true] with
    | Ok pf => isok (verify_open e b1 b1 (ch 3) ipk cm pf [Revealed (n 31); Hidden None; Revealed (n 33)]) &&
               iserr (verify_open e b1 b1 (ch 3) ipk cm pf [Revealed (n 31); Hidden None; Revealed (n 34)])
    | _ => false end
  | _ => false end = true.
Proof. vm_compute. reflexivity. Qed.
(** Two challenges, same blinding: the hypotheses of special soundness. *)
Example C25_two_challenges : match grant_credential (n 4) (fst keys) (snd user) attrs with
  | Ok s => let cm := comm_new s rd in
    match open_comm b1 b1 (ch 3) (draws 5) (fst user) (mkCred s attrs ipk) cm rd [true; false; true],
          open_comm b1 b1 (ch 8) (draws 5) (fst user) (mkCred s attrs ipk) cm rd [true; false; true] with
    | Ok pf, Ok pf' => isok (verify_open e b1 b1 (ch 3) ipk cm pf [Revealed (n 31); Hidden None; Revealed (n 33)]) &&
               isok (verify_open e b1 b1 (ch 8) ipk cm pf' [Revealed (n 31); Hidden None; Revealed (n 33)]) &&
               meqb (blinding pf) (blinding pf') && negb (feqb (resp_t pf) (resp_t pf'))
    | _, _ => false end
  | _ => false end = true.
Proof. vm_compute. reflexivity. Qed.
(** Confidential disclosure, with the count check. *)
Example C26_case : match grant_credential (n 4) (fst keys) (snd user) attrs with
  | Ok s => let cm := comm_new s rd in let ek : G := n 50 in
    match confidential_open_comm b1 b1 (ch 3) (draws 5) (fst user) (mkCred s attrs ipk) cm rd [true; false; true] ek [1%N] with
    | Ok (cts, pf) => isok (confidential_verify_open e b1 b1 (ch 3) ipk ek [true; false; true] cm cts pf [1%N]) &&
               iserr (confidential_verify_open e b1 b1 (ch 3) ipk ek [true; true; false] cm cts pf [1%N]) &&
               iserr (confidential_verify_open e b1 b1 (ch 3) ipk ek [true; true; true] cm cts pf [1%N])
    | _ => false end
  | _ => false end = true.
Proof. vm_compute. reflexivity. Qed.
(** The late-attribute forgery: 41 claimed differences, another value accepted. *)
Example C25_late_case : match grant_credential (n 4) (fst keys) (snd user) attrs with
  | Ok s => let cm := comm_new s rd in
    let b : G := weigh [n 0; n 1; n 0] (yy2 ipk) in
    let c := ch 3 (init_pok b1 b1 [Tag 2] ipk cm ++ [Com2 b]) in
    isok (verify_open e b1 b1 (ch 3) ipk cm (mkPok b (fmul c (n 19)) (fmul c (n 21)) []) [Revealed (n 31); Revealed (fadd (n 32) (fdiv (n 1) c)); Revealed (n 33)])
    && negb (feqb c (n 0))
  | _ => false end = true.
Proof. vm_compute. reflexivity. Qed.
End Examples.

Print Assumptions C24_grant. Print Assumptions C24_grant_wrong_number. Print Assumptions C24_grant_valid. Print Assumptions C24_disclosure_accepted.
Print Assumptions C24_open_credential_accepted. Print Assumptions C24_commitment_accepted. Print Assumptions C24_commit_without_randomizer.
Print Assumptions C24_api_accepted. Print Assumptions C24_wrong_map_refused. Print Assumptions C24_revealed_attributes. Print Assumptions C24_oversized_panics.
Print Assumptions C25_exact. Print Assumptions C25_no_panic. Print Assumptions C25_missing_responses_refused. Print Assumptions C25_special_soundness.
Print Assumptions C25_signature_is_issued. Print Assumptions C25_identity_refuted. Print Assumptions C25_identity_api_refuted.
Print Assumptions C25_late_attributes_refuted. Print Assumptions C25_extra_attributes_refuted. Print Assumptions C26_disclosure_accepted.
Print Assumptions C26_count_mismatch_refused. Print Assumptions C26_special_soundness. Print Assumptions C26_identity_refuted.
