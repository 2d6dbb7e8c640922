From Coq Require Import List Arith NArith Bool Lia Field Ring.
From Verif Require Import Base Field AcModel AcSpec.
Import ListNotations.
Local Open Scope F_scope.

Section Proofs.
Context {F : Field} {G1 G2 GT : Mod F}.
Context (e : G1 -> G2 -> GT) (base1 : G1) (base2 : G2) (BL : bilinear e).
Add Field Fac : (f_th F).
Notation rng := (rng (F := F)).
Notation attribute := (attribute (F := F)).

Lemma multi_exp_weigh : forall l (ys : list G2), multi_exp l ys = weigh l ys.
Proof.
  induction l as [|a l IH]; intros [|y ys]; try reflexivity. unfold multi_exp. cbn. unfold multi_exp in IH. now rewrite <- IH.
Qed.
Lemma multi_exp_4 a b c d l (w x y z : G2) ys :
  multi_exp ([a; b; c; d] ++ l) ([w; x; y; z] ++ ys) = (a *: w + b *: x + c *: y + d *: z + weigh l ys)%M.
Proof. rewrite multi_exp_weigh. cbn [app weigh]. module_eq. Qed.
Lemma meqb_ok {M : Mod F} (a b : M) : (if meqb a b then Ok tt else Err) = Ok tt <-> a = b.
Proof. destruct (meqb_spec a b); split; intros; congruence. Qed.

Lemma weigh_scale {M : Mod F} x : forall l (ys : list M), (x *: weigh l ys = weigh (map (fmul x) l) ys)%M.
Proof. induction l as [|a l IH]; intros [|y ys]; cbn [weigh map]; try (apply smul_0r). rewrite <- IH. module_eq. Qed.
Lemma weigh_zip {M : Mod F} (f : F -> F -> F) (x y : F) : (forall a b, f a b = x * a + y * b) ->
  forall l l' (ys : list M), length l = length l' ->
  (weigh (map (fun p => f (fst p) (snd p)) (combine l l')) ys = x *: weigh l ys + y *: weigh l' ys)%M.
Proof.
  intros E. induction l as [|a l IH]; intros [|b l'] ys L; try discriminate; cbn [combine map weigh]; [module_eq|].
  destruct ys as [|q ys]; cbn [weigh]; [module_eq|]. rewrite IH by (now injection L). cbn [fst snd]. rewrite E. module_eq.
Qed.
Lemma weigh_dot {M : Mod F} (g : M) : forall l ys, (weigh l (map (fun y => y *: g) ys) = dot l ys *: g)%M.
Proof. induction l as [|a l IH]; intros [|y ys]; cbn [weigh map dot]; try (symmetry; apply smul_0l). rewrite IH. module_eq. Qed.
Lemma dot_comm_fold : forall l ys x, fold_left (fun x (ay : F * F) => x + fst ay * snd ay) (combine l ys) x = x + dot l ys.
Proof. induction l as [|a l IH]; intros [|y ys] x; cbn; try ring. rewrite IH. cbn. ring. Qed.
Lemma weigh_app {M : Mod F} : forall l r (ys : list M), length l = length ys -> weigh (l ++ r) ys = weigh l ys.
Proof. induction l as [|a l IH]; intros r [|y ys] L; try discriminate; cbn [app weigh]; [destruct r; reflexivity|]. now rewrite IH by (now injection L). Qed.

(** Verification as an equation. *)
Lemma verify_pok_iff p cm pf attrs c :
  verify_pok e p cm pf attrs c = Ok tt <-> exists l, attr_scalars c attrs (resp_attrs pf) = Ok l /\
    (e (sigma1 cm) (resp_t pf *: gen2 p + c *: xx2 p + resp_sk pf *: zz2 p - blinding pf + weigh l (yy2 p)) = c *: e (sigma2 cm) (gen2 p))%M.
Proof.
  destruct BL as [_ [L2 _]]. unfold verify_pok. destruct (attr_scalars c attrs (resp_attrs pf)) as [l| |]; cbn [bind].
  - rewrite meqb_ok, multi_exp_4, L2.
    replace (resp_t pf *: gen2 p + c *: xx2 p + resp_sk pf *: zz2 p + fopp 1 *: blinding pf + weigh l (yy2 p))%M
      with (resp_t pf *: gen2 p + c *: xx2 p + resp_sk pf *: zz2 p - blinding pf + weigh l (yy2 p))%M by module_eq.
    split; [intros E; exists l; auto|]. intros [l' [E X]]. apply Ok_inj in E. now subst l'.
  - split; [discriminate|]. intros [l [E _]]. discriminate.
  - split; [discriminate|]. intros [l [E _]]. discriminate.
Qed.
Lemma verify_pok_no_panic p cm pf attrs c : verify_pok e p cm pf attrs c <> Panic.
Proof.
  unfold verify_pok. assert (N : forall a r, attr_scalars c a r <> Panic).
  { induction a as [|[x|x] a IH]; intros r; cbn; [discriminate| |].
    - specialize (IH r). destruct (attr_scalars c a r); cbn; congruence.
    - destruct r as [|y r]; [discriminate|]. specialize (IH r). destruct (attr_scalars c a r); cbn; congruence. }
  specialize (N attrs (resp_attrs pf)). destruct (attr_scalars c attrs (resp_attrs pf)); cbn [bind]; [|discriminate|congruence].
  destruct (meqb _ _); discriminate.
Qed.

(** ** Honest proofs *)
(** The loops of the prover and the scalars of the verifier; [full] has a zero at revealed places. *)
Lemma honest_loops (c : F) : forall (ys : list G2) vals map_ (g : rng) (acc : G2), length ys = length vals -> length map_ = length vals ->
  exists full gamma g' resps, length full = length vals /\
    blind_loop ys (reveal vals map_) g acc = Ok ((acc + weigh full ys)%M, gamma, g') /\
    resp_loop c (reveal vals map_) gamma = Ok resps /\
    attr_scalars c (disclosed vals map_) resps = Ok (map (fun p => c * fst p + snd p) (combine vals full)).
Proof.
  induction ys as [|y ys IH]; intros [|v vals] [|b map_] g acc L1 L2; try discriminate; cbn [length] in *.
  - exists [], [], g, []. cbn. repeat split. now rewrite madd_0_r.
  - injection L1 as L1. injection L2 as L2. destruct b.
    + destruct (IH vals map_ g acc L1 L2) as [full [gamma [g' [resps [L [B [R A]]]]]]].
      exists (0 :: full), gamma, g', resps. unfold reveal, disclosed in *. cbn [combine map length blind_loop resp_loop attr_scalars fst snd].
      rewrite B, A. cbn [bind weigh]. repeat split; [now rewrite L|f_equal; f_equal; f_equal; module_eq|exact R|].
      f_equal. f_equal. ring.
    + destruct (IH vals map_ (skipr 1 g) (acc + g 0%nat *: y)%M L1 L2) as [full [gamma [g' [resps [L [B [R A]]]]]]].
      exists (g 0%nat :: full), (g 0%nat :: gamma), g', (c * v + g 0%nat :: resps). unfold reveal, disclosed in *.
      cbn [combine map length blind_loop resp_loop attr_scalars fst snd]. rewrite B, R, A. cbn [bind weigh fst snd].
      repeat split; [now rewrite L|]. f_equal. f_equal. f_equal. module_eq.
Qed.
(** [prove_pok] for a commitment whose unmasked signature is on the user secret and the attributes. *)
Lemma honest_pok chal t (g : rng) usk p cm tt_ vals map_ :
  length (yy2 p) = length vals -> length map_ = length vals -> signature_on e p (unmask cm tt_) usk vals ->
  exists pf, prove_pok chal t g usk p tt_ (reveal vals map_) = Ok pf /\
    verify_pok e p cm pf (disclosed vals map_) (chal (t ++ [Com2 (blinding pf)])) = Ok tt.
Proof.
  intros L1 L2 S. destruct BL as [B1 [B2 [B3 B4]]].
  unfold prove_pok. set (acc := (g 0%nat *: gen2 p + g 1%nat *: zz2 p)%M).
  destruct (honest_loops 0 (yy2 p) vals map_ (skipr 2 g) acc L1 L2) as [full0 [gamma0 [g0 [r0 [_ [B0 _]]]]]].
  set (b := (acc + weigh full0 (yy2 p))%M) in B0. set (c := chal (t ++ [Com2 b])).
  destruct (honest_loops c (yy2 p) vals map_ (skipr 2 g) acc L1 L2) as [full [gamma [g' [resps [L [Bl [R A]]]]]]].
  assert (X : Ok (b, gamma0, g0) = Ok ((acc + weigh full (yy2 p))%M, gamma, g')) by (rewrite <- B0; exact Bl).
  apply Ok_inj in X. injection X as Xb Xg _. subst gamma0. rewrite B0. cbn [bind fst snd]. cbv zeta. fold c. rewrite R. cbn [bind].
  eexists. split; [reflexivity|]. cbn [blinding]. fold c. apply verify_pok_iff. cbn [resp_attrs resp_t resp_sk blinding].
  eexists. split; [exact A|].
  rewrite (weigh_zip (fun a b => c * a + b) c 1) by (intros; try ring; now symmetry). rewrite Xb. unfold acc.
  transitivity (e (sigma1 cm) (c *: ((xx2 p + usk *: zz2 p + weigh vals (yy2 p)) + tt_ *: gen2 p)))%M; [f_equal; module_eq|].
  rewrite B4, B3, B4. unfold signature_on, unmask in S. cbn [sigma1 sigma2] in S. rewrite S.
  unfold msub. rewrite B1, mopp_smul, B2, B2. module_eq.
Qed.
(** Every proof for the identity commitment is accepted. *)
Lemma identity_pok p c pf attrs l : attr_scalars c attrs (resp_attrs pf) = Ok l ->
  verify_pok e p sig_default pf attrs c = Ok tt.
Proof.
  intros A. apply verify_pok_iff. exists l. split; [exact A|]. destruct BL as [_ [B2 _]]. cbn [sigma1 sigma2 sig_default].
  rewrite <- (smul_0l (m0 : G1)), !B2, !smul_0l, smul_0r. reflexivity.
Qed.
Lemma comm_default rd : comm_new (sig_default (G1 := G1)) rd = sig_default.
Proof. unfold comm_new, sig_default. cbn [sigma1 sigma2]. f_equal; module_eq. Qed.
Lemma default_signature p t usk vals : signature_on e p (unmask (sig_default (G1 := G1)) t) usk vals.
Proof.
  destruct BL as [B1 [B2 _]]. unfold signature_on, unmask. cbn [sigma1 sigma2 sig_default].
  replace (m0 - t *: m0)%M with (m0 : G1) by module_eq. rewrite <- (smul_0l (m0 : G1)), !B2, !smul_0l. reflexivity.
Qed.

(** An issued signature, masked, is on the user secret and the attributes. *)
Lemma granted x z g1 (g2 : G2) ys sk u attrs s rd :
  let keys := issuer_keygen x z g1 g2 ys in
  grant_credential u (fst keys) (snd (user_keygen (snd keys) sk)) attrs = Ok s ->
  length ys = length attrs /\ s = mkSig (u *: g1)%M (u * (x + z * sk + dot attrs ys) *: g1)%M /\
  signature_on e (snd keys) (unmask (comm_new s rd) (rd_t rd)) sk attrs.
Proof.
  cbv zeta. unfold grant_credential, issuer_keygen, user_keygen. cbn [fst snd sk_y sk_x gen1 zz1].
  destruct (Nat.eqb_spec (length ys) (length attrs)) as [L|L]; cbn [negb]; [|discriminate].
  intros E. apply Ok_inj in E. subst s. split; [exact L|]. rewrite dot_comm_fold. split; [f_equal; module_eq|].
  destruct BL as [B1 [B2 [B3 B4]]]. unfold signature_on, unmask, comm_new. cbn [sigma1 sigma2 xx2 zz2 yy2 gen2].
  rewrite weigh_dot.
  replace (x *: g2 + sk *: (z *: g2) + dot attrs ys *: g2)%M with ((x + sk * z + dot attrs ys) *: g2)%M by module_eq. rewrite B4.
  match goal with |- _ = e ?q g2 => replace q with ((x + sk * z + dot attrs ys) *: (rd_r rd *: (u *: g1)))%M by module_eq end.
  now rewrite (B2 (x + sk * z + dot attrs ys)).
Qed.

(** ** Extraction *)
Definition quot (c c' : F) (a a' : F) : F := (a - a') / (c - c').
Definition extract (c c' : F) (l l' : list F) : list F := map (fun p => quot c c' (fst p) (snd p)) (combine l l').
Lemma sub_neq (c c' : F) : c <> c' -> c - c' <> 0.
Proof. intros N Z. apply N. now apply (proj1 (fsub_0 F _ _)). Qed.
Lemma scalars_agree c c' : c <> c' -> forall attrs r r' l l', attr_scalars c attrs r = Ok l -> attr_scalars c' attrs r' = Ok l' ->
  length l = length attrs /\ length l' = length attrs /\ agrees attrs (extract c c' l l').
Proof.
  intros N. induction attrs as [|[a|a] attrs IH]; intros r r' l l' A A'; cbn in A, A'.
  - apply Ok_inj in A, A'. subst. repeat split. constructor.
  - apply bind_ok in A, A'. destruct A as [k [A E]], A' as [k' [A' E']]. apply Ok_inj in E, E'. subst l l'.
    destruct (IH _ _ _ _ A A') as [L [L' G]]. cbn. rewrite L, L'. repeat split. constructor; [|exact G].
    cbn. unfold quot. field. now apply sub_neq.
  - destruct r as [|x r], r' as [|x' r']; try discriminate. apply bind_ok in A, A'. destruct A as [k [A E]], A' as [k' [A' E']]. apply Ok_inj in E, E'. subst l l'.
    destruct (IH _ _ _ _ A A') as [L [L' G]]. cbn. rewrite L, L'. repeat split. now constructor.
Qed.
Lemma extract_revealed c c' : c <> c' -> forall attrs r r' l l', attr_scalars c attrs r = Ok l -> attr_scalars c' attrs r' = Ok l' ->
  extract c c' l l' = revealed_attrs c c' attrs r r'.
Proof.
  intros N. induction attrs as [|[a|a] attrs IH]; intros r r' l l' A A'; cbn in A, A'.
  - apply Ok_inj in A, A'. now subst.
  - apply bind_ok in A, A'. destruct A as [k [A E]], A' as [k' [A' E']]. apply Ok_inj in E, E'. subst l l'.
    cbn. fold (extract c c' k k'). rewrite (IH _ _ _ _ A A'). f_equal. unfold quot. field. now apply sub_neq.
  - destruct r as [|x r], r' as [|x' r']; try discriminate. apply bind_ok in A, A'. destruct A as [k [A E]], A' as [k' [A' E']]. apply Ok_inj in E, E'. subst l l'.
    cbn. fold (extract c c' k k'). rewrite (IH _ _ _ _ A A'). reflexivity.
Qed.
Lemma two_proofs p cm pf pf' attrs c c' : c <> c' -> blinding pf = blinding pf' ->
  verify_pok e p cm pf attrs c = Ok tt -> verify_pok e p cm pf' attrs c' = Ok tt ->
  exists l l', attr_scalars c attrs (resp_attrs pf) = Ok l /\ attr_scalars c' attrs (resp_attrs pf') = Ok l' /\
    agrees attrs (extract c c' l l') /\
    signature_on e p (unmask cm (quot c c' (resp_t pf) (resp_t pf'))) (quot c c' (resp_sk pf) (resp_sk pf')) (extract c c' l l').
Proof.
  intros N Bd V V'. apply verify_pok_iff in V, V'. destruct V as [l [A V]], V' as [l' [A' V']]. exists l, l'.
  destruct (scalars_agree c c' N attrs _ _ _ _ A A') as [L [L' G]]. do 3 (split; [assumption|]).
  destruct BL as [B1 [B2 [B3 B4]]]. pose proof (sub_neq c c' N) as N'. unfold signature_on, unmask. cbn [sigma1 sigma2].
  unfold msub. rewrite B1, mopp_smul, B2, B2. apply (smul_cancel (c - c')); [exact N'|].
  apply (madd_cancel ((resp_t pf - resp_t pf') *: e (sigma1 cm) (gen2 p))%M).
  transitivity ((c - c') *: e (sigma2 cm) (gen2 p))%M.
  2:{ unfold quot. transitivity ((c - c') *: e (sigma2 cm) (gen2 p) + ((resp_t pf - resp_t pf') - (c - c') * ((resp_t pf - resp_t pf') / (c - c'))) *: e (sigma1 cm) (gen2 p))%M; [|module_eq].
      replace ((resp_t pf - resp_t pf') - (c - c') * ((resp_t pf - resp_t pf') / (c - c'))) with (0 : F) by (field; exact N'). module_eq. }
  transitivity (c *: e (sigma2 cm) (gen2 p) - c' *: e (sigma2 cm) (gen2 p))%M; [|module_eq]. rewrite <- V, <- V'.
  assert (B5 : forall a h h', e a (h - h')%M = (e a h - e a h')%M) by (intros; unfold msub; rewrite B3, (mopp_smul h'), B4; module_eq).
  rewrite <- B5, <- !B4, <- B3. f_equal.
  unfold extract. rewrite (weigh_zip (quot c c') (1 / (c - c')) (fopp (1 / (c - c')))) by (try congruence; intros; unfold quot; field; exact N').
  unfold quot. rewrite <- Bd.
  transitivity ((resp_t pf - resp_t pf') *: gen2 p + (c - c') *: xx2 p + ((c - c') * ((resp_sk pf - resp_sk pf') / (c - c'))) *: zz2 p
     + ((c - c') * (1 / (c - c'))) *: weigh l (yy2 p) - ((c - c') * (1 / (c - c'))) *: weigh l' (yy2 p))%M; [module_eq|].
  replace ((c - c') * (1 / (c - c'))) with (1 : F) by (field; exact N').
  replace ((c - c') * ((resp_sk pf - resp_sk pf') / (c - c'))) with (resp_sk pf - resp_sk pf') by (field; exact N'). module_eq.
Qed.

(** ** Ciphertexts *)
Lemma filter_selected {A} : forall (l : list A) map_, map fst (filter (fun ab => snd ab) (combine l map_)) = selected l map_.
Proof. induction l as [|a l IH]; intros [|b m]; try reflexivity. cbn. destruct b; cbn; now rewrite IH. Qed.
Lemma selected_len {A} : forall (l : list A) map_, (length map_ <= length l)%nat -> length (selected l map_) = count_occ bool_dec map_ true.
Proof. induction l as [|a l IH]; intros [|b m] L; cbn in *; try lia; try reflexivity. destruct b; cbn; rewrite IH by lia; reflexivity. Qed.
Lemma revealed_count_eq map_ : revealed_count map_ = count_occ bool_dec map_ true.
Proof.
  unfold revealed_count. enough (H : forall m k, fold_left (fun s (b : bool) => if b then S s else s) m k = (k + count_occ bool_dec m true)%nat) by (now rewrite H).
  induction m as [|b m IH]; intros k; cbn [fold_left count_occ]; [lia|]. rewrite IH. destruct b; cbn; lia.
Qed.
Lemma all_hidden_scalars c : forall n r, (n <= length r)%nat -> attr_scalars c (repeat (Hidden (F := F) None) n) r = Ok (firstn n r).
Proof. induction n as [|n IH]; intros [|x r] L; cbn [repeat attr_scalars firstn length] in *; try reflexivity; try lia. rewrite IH by lia. reflexivity. Qed.
Lemma all_hidden_scalars_inv c : forall n r l, attr_scalars c (repeat (Hidden (F := F) None) n) r = Ok l -> (n <= length r)%nat /\ l = firstn n r.
Proof.
  induction n as [|n IH]; intros r l E; cbn in E; [apply Ok_inj in E; subst; cbn; split; [lia|reflexivity]|].
  destruct r as [|x r]; [discriminate|]. apply bind_ok in E. destruct E as [k [A E]]. apply Ok_inj in E. subst l. apply IH in A. destruct A as [A ->].
  cbn. split; [lia|reflexivity].
Qed.
Lemma selected_firstn {A} : forall n (l : list A) map_, length map_ = n -> selected (firstn n l) map_ = selected l map_.
Proof. induction n as [|n IH]; intros l [|b m] L; try discriminate; [destruct l; reflexivity|]. destruct l as [|a l]; [reflexivity|]. cbn. injection L as L. now rewrite IH. Qed.
Lemma selected_extract c c' : forall l l' map_, length l = length l' ->
  selected (extract c c' l l') map_ = extract c c' (selected l map_) (selected l' map_).
Proof. induction l as [|a l IH]; intros [|a' l'] [|b m] L; try discriminate; try reflexivity. injection L as L. destruct b; cbn; fold (extract c c' l l'); rewrite IH by exact L; reflexivity. Qed.

Lemma ct_extract dk c c' : c <> c' -> forall cts ctcs az az' rs rs', length cts = length ctcs -> length cts = length az -> length cts = length rs ->
  length cts = length az' -> length cts = length rs' ->
  verify_ciphertext base1 c cts ctcs az rs (dk *: base1)%M = Ok tt ->
  verify_ciphertext base1 c' cts ctcs az' rs' (dk *: base1)%M = Ok tt ->
  Forall2 (decrypts dk base1) cts (extract c c' az az').
Proof.
  intros N. pose proof (sub_neq c c' N) as N'.
  induction cts as [|ct cts IH]; intros [|cc ctcs] [|a az] [|a' az'] [|r rs] [|r' rs'] L1 L2 L3 L4 L5 V V'; try discriminate; [constructor|].
  unfold verify_ciphertext in V, V'. cbn [combine forallb] in V, V'. 
  destruct (ct_check base1 c (dk *: base1)%M (ct, cc, a, r)) eqn:C; [|discriminate V].
  destruct (ct_check base1 c' (dk *: base1)%M (ct, cc, a', r')) eqn:C'; [|discriminate V']. cbn [andb] in V, V'.
  cbn [extract combine map fst snd]. constructor; [|apply (IH ctcs az az' rs rs'); auto].
  unfold ct_check, encrypt in C, C'. cbn [fst snd] in C, C'. apply andb_prop in C, C'. destruct C as [C1 C2], C' as [C1' C2'].
  destruct (meqb_spec (r *: base1)%M (c *: fst ct + fst cc)%M) as [X1|]; [|discriminate].
  destruct (meqb_spec (a *: base1 + r *: (dk *: base1))%M (c *: snd ct + snd cc)%M) as [X2|]; [|discriminate].
  destruct (meqb_spec (r' *: base1)%M (c' *: fst ct + fst cc)%M) as [X1'|]; [|discriminate].
  destruct (meqb_spec (a' *: base1 + r' *: (dk *: base1))%M (c' *: snd ct + snd cc)%M) as [X2'|]; [|discriminate].
  unfold decrypts. apply (smul_cancel (c - c')); [exact N'|].
  transitivity (((c *: snd ct + snd cc) - (c' *: snd ct + snd cc)) - dk *: ((c *: fst ct + fst cc) - (c' *: fst ct + fst cc)))%M; [module_eq|].
  rewrite <- X1, <- X2, <- X1', <- X2'. unfold quot.
  transitivity (((c - c') * ((a - a') / (c - c'))) *: base1)%M; [|module_eq].
  replace ((c - c') * ((a - a') / (c - c'))) with (a - a') by (field; exact N'). module_eq.
Qed.

(** Honest ciphertexts. *)
Lemma enc_loop_selected ek : forall attrs map_ (g : rng), exists g',
  let rs := snd (fst (enc_loop base1 ek attrs map_ g)) in
  enc_loop base1 ek attrs map_ g = (map (fun ar => encrypt base1 ek (fst ar) (snd ar)) (combine (selected attrs map_) rs), rs, g') /\
  length rs = length (selected attrs map_).
Proof.
  induction attrs as [|a attrs IH]; intros [|b m] g; try (exists g; split; reflexivity). cbn. destruct b; [|apply IH].
  destruct (IH m (skipr 1 g)) as [g' [E L]]. cbv zeta in *. exists g'. cbn [fst snd]. split; [|cbn; now rewrite L].
  cbn [combine map fst snd]. rewrite E at 1 3. cbn [fst snd]. reflexivity.
Qed.
Lemma cac_loop_ok ek : forall (ys : list G2) attrs (g : rng) acc, length ys = length attrs -> exists ra rr,
  cac_loop base1 ek ys attrs g acc =
   ((acc + weigh ra ys)%M, map (fun ar => encrypt base1 ek (fst ar) (snd ar)) (combine (selected ra (map snd attrs)) rr), ra, rr) /\
  length ra = length attrs /\ length rr = length (selected ra (map snd attrs)).
Proof.
  induction ys as [|y ys IH]; intros [|[a b] attrs] g acc L; try discriminate; cbn [cac_loop].
  - exists [], []. cbn. now rewrite madd_0_r.
  - injection L as L. destruct b.
    + destruct (IH attrs (skipr 2 g) (acc + g 0%nat *: y)%M L) as [ra [rr [E [L1 L2]]]]. rewrite E.
      exists (g 0%nat :: ra), (g 1%nat :: rr). cbn. rewrite L1, L2. repeat split. do 3 f_equal. module_eq.
    + destruct (IH attrs (skipr 1 g) (acc + g 0%nat *: y)%M L) as [ra [rr [E [L1 L2]]]]. rewrite E.
      exists (g 0%nat :: ra), rr. cbn. rewrite L1, L2. repeat split. do 3 f_equal. module_eq.
Qed.
Lemma selected_map2 (f : F -> F -> F) : forall (attrs : list (F * bool)) ra, length ra = length attrs ->
  selected (map (fun x => f (fst (fst x)) (snd x)) (combine attrs ra)) (map snd attrs) =
  map (fun x => f (fst x) (snd x)) (combine (selected (map fst attrs) (map snd attrs)) (selected ra (map snd attrs))).
Proof. induction attrs as [|[a b] attrs IH]; intros [|r ra] L; try discriminate; [reflexivity|]. cbn. injection L as L. destruct b; cbn; rewrite IH by exact L; reflexivity. Qed.
Lemma honest_ct c ek : forall az bz rs qs, length bz = length az -> length rs = length az -> length qs = length az ->
  verify_ciphertext base1 c (map (fun ar => encrypt base1 ek (fst ar) (snd ar)) (combine az rs)) (map (fun ar => encrypt base1 ek (fst ar) (snd ar)) (combine bz qs))
    (map (fun x => c * fst x + snd x) (combine az bz)) (map (fun x => c * fst x + snd x) (combine rs qs)) ek = Ok tt.
Proof.
  induction az as [|a az IH]; intros [|b bz] [|r rs] [|q qs] L1 L2 L3; try discriminate; [reflexivity|].
  unfold verify_ciphertext in *. cbn [combine map forallb fst snd].
  assert (C : ct_check base1 c ek (encrypt base1 ek a r, encrypt base1 ek b q, c * a + b, c * r + q) = true).
  { unfold ct_check, encrypt. cbn [fst snd]. apply andb_true_intro. split.
    - destruct (meqb_spec ((c * r + q) *: base1)%M (c *: (r *: base1) + q *: base1)%M) as [|X]; [reflexivity|]. destruct X. module_eq.
    - destruct (meqb_spec ((c * a + b) *: base1 + (c * r + q) *: ek)%M (c *: (a *: base1 + r *: ek) + (b *: base1 + q *: ek))%M) as [|X]; [reflexivity|]. destruct X. module_eq. }
  rewrite C. cbn [andb]. apply IH; cbn in *; lia.
Qed.
End Proofs.
