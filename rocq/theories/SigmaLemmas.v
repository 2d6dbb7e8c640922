(** The Pedersen-ElGamal, Chaum-Pedersen and delegated Schnorr protocols reduced to
    their equations. *)
From Coq Require Import List Arith NArith Bool Lia Field Ring.
From Verif Require Import Base Field SigmaModel SigmaSpec SigmaProofs.
Import ListNotations.
Local Open Scope F_scope.

Section Uses.
Context {F : Field} {G : Mod F} (B H : G).
Add Field Fu : (f_th F).
Local Open Scope M_scope.
Notation zero_all := (Forall (fun a : G => a = m0)).

Lemma wsum_ext (l : list G) : forall g g' : rng, (forall i, (i < length l)%nat -> g i = g' i) -> wsum g l = wsum g' l.
Proof.
  induction l as [|a l IH]; intros g g' E; cbn [wsum]; [reflexivity|]. rewrite (E 0%nat) by (cbn; lia). f_equal. apply IH.
  intros i Hi. apply E. cbn. lia.
Qed.
Lemma lc_g_comb x (e : list G) : lc_g x e = comb x e.
Proof.
  unfold lc_g, comb. rewrite <- (madd_0 _ _ (msum _)). generalize (m0 : G) as a. generalize (combine x e) as l.
  induction l as [|p l IH]; intros a; cbn [fold_left map]; [symmetry; apply madd_0_r|]. rewrite IH, msum_cons. apply eq_sym, madd_assoc.
Qed.
Lemma lc_ct_comb x (cts : list ctext) : lc_ct x cts = comb_ct (G := G) x cts.
Proof. unfold lc_ct, comb_ct. now rewrite !lc_g_comb. Qed.
Lemma comb_cons x xs (a : G) l : comb (x :: xs) (a :: l) = x *: a + comb xs l. Proof. reflexivity. Qed.
Definition dots (x m : list F) : F := fold_right (fun p a => (fst p * snd p + a)%F) f0 (combine x m).
Lemma lc_s_dots x m : lc_s x m = dots x m.
Proof.
  unfold lc_s, dots. replace (fold_right (fun p a => (fst p * snd p + a)%F) f0 (combine x m)) with
    (f0 + fold_right (fun p a => (fst p * snd p + a)%F) f0 (combine x m))%F by ring. generalize (f0 : F) at 1 2 as a.
  generalize (combine x m) as l. induction l as [|p l IH]; intros a; cbn [fold_left fold_right]; [ring|]. rewrite IH. ring.
Qed.

(** ** Batches *)
Definition acc_value (a : bacc) : G := let '(sB, sH, ss, es) := a in multi_exp ([sB; sH] ++ ss) ([B; H] ++ es).
Definition acc_ok (a : bacc (G := G)) : Prop := let '(_, _, ss, es) := a in length ss = length es.
Lemma acc_add sB sH ss es al s own : length ss = length es -> length s = (2 + length own)%nat ->
  acc_value ((sB + al * nth 0 s f0)%F, (sH + al * nth 1 s f0)%F, ss ++ map (fun x => (al * x)%F) (skipn 2 s), es ++ own) =
  acc_value (sB, sH, ss, es) + al *: multi_exp s ([B; H] ++ own).
Proof.
  intros L1 L2. destruct s as [|a [|b s]]; try discriminate. cbn [nth skipn acc_value app].
  rewrite !me_cons, me_app, me_scal by exact L1. module_eq.
Qed.
Lemma batch_check_eq a : batch_check B H a = if meqb (acc_value a) m0 then Ok tt else Err.
Proof. destruct a as [[[sB sH] ss] es]. reflexivity. Qed.

(** ** Pedersen-ElGamal *)
Definition pe_eqs (pk : G) (ct : ctext) (com : G) (p : pe_proof) (c : F) : list G :=
  [pe_z2 p *: B - c *: fst ct - fst (pe_e1 p);
   pe_z1 p *: B + pe_z2 p *: pk - c *: snd ct - snd (pe_e1 p);
   pe_z1 p *: B + pe_z2 p *: H - c *: com - pe_c1 p].
Lemma pe_defects pk ct com p c :
  defects (pe_elems B H pk ct com) (s_resps (pe_sigma p)) c pe_lhs pe_rhs (s_coms (pe_sigma p)) = pe_eqs pk ct com p c.
Proof.
  destruct ct as [a b]. destruct p as [z1 z2 [x y] w]. cbn [pe_sigma s_resps s_coms pe_e1 pe_z1 pe_z2 pe_c1 fst snd].
  unfold pe_lhs, pe_rhs, pe_elems, pe_eqs. cbn [defects]. unfold defect, lin. cbn [combine map nth fst snd pe_e1 pe_z1 pe_z2 pe_c1]. cbn [msum fold_right].
  repeat f_equal; module_eq.
Qed.
Definition pe_challenge (chal : oracle) (t : transcript) (pk : G) (ct : ctext) (com : G) (p : pe_proof) : F :=
  sigma_chal chal (t ++ [Tag 3]) (pe_elems B H pk ct com) (pe_sigma p).
Lemma pe_scalars_eq chal t g pk ct com p : exists s,
  pe_verify_scalars B H chal t g pk ct com p = Ok (s, skipr 3 g) /\ length s = 9%nat /\
  multi_exp s ([B; H] ++ pe_own pk ct com p) = wsum g (pe_eqs pk ct com p (pe_challenge chal t pk ct com p)).
Proof.
  unfold pe_verify_scalars. rewrite scalars_eq by (split; reflexivity). cbn [bind fst snd].
  set (s := collect_scalars _ _ _ _ _ _). exists (tl s).
  assert (Ls : length s = 10%nat) by apply (collect_len (G := G)). split; [reflexivity|]. split; [destruct s; [discriminate|cbn in *; lia]|].
  rewrite <- pe_defects. unfold pe_challenge. rewrite <- (collect_value g pe_lhs pe_rhs) by reflexivity. fold s.
  destruct s as [|x s]; [discriminate|]. unfold pe_elems. cbn [tl app pe_sigma s_coms]. rewrite (me_cons x s m0), smul_0r, madd_0. reflexivity.
Qed.
Lemma pe_verify_eq chal t g pk ct com p :
  pe_verify B H chal t g pk ct com p = if meqb (wsum g (pe_eqs pk ct com p (pe_challenge chal t pk ct com p))) m0 then Ok tt else Err.
Proof. unfold pe_verify. destruct (pe_scalars_eq chal t g pk ct com p) as [s [E [_ V]]]. rewrite E. cbn [bind fst]. now rewrite V. Qed.

Section Instances.
Context (chal : oracle (G := G)) (t : transcript (G := G)).
(** The combination, its challenge and the equations of an instance. *)
Definition pi_lc (i : pe_instance) : list F * transcript := lc_scalars chal (init_pe_transcript B H t (pi_pk i) (pi_cts i) (pi_coms i)) (length (pi_cts i)).
Definition pi_challenge (i : pe_instance) : F :=
  pe_challenge chal (snd (pi_lc i)) (pi_pk i) (lc_ct (fst (pi_lc i)) (pi_cts i)) (lc_g (fst (pi_lc i)) (pi_coms i)) (pi_proof i).
Definition pi_eqs (i : pe_instance) : list G :=
  pe_eqs (pi_pk i) (lc_ct (fst (pi_lc i)) (pi_cts i)) (lc_g (fst (pi_lc i)) (pi_coms i)) (pi_proof i) (pi_challenge i).
Definition pi_fits (i : pe_instance (G := G)) : Prop := length (pi_cts i) = length (pi_coms i).
Fixpoint pe_bsum (g : rng) (l : list pe_instance) : G :=
  match l with [] => m0 | i :: l' => g 0%nat *: wsum (skipr 1 g) (pi_eqs i) + pe_bsum (skipr 4 g) l' end.
Lemma pe_step_eq g a i : pi_fits i -> acc_ok a -> exists a', pe_step B H chal t (g, a) i = Ok (skipr 4 g, a') /\ acc_ok a' /\
  acc_value a' = acc_value a + g 0%nat *: wsum (skipr 1 g) (pi_eqs i).
Proof.
  intros Hi Ha. destruct a as [[[sB sH] ss] es]. cbn [acc_ok] in Ha. unfold pe_step. unfold pi_fits in Hi. rewrite Hi, Nat.eqb_refl. cbn [negb]. rewrite <- Hi.
  fold (pi_lc i). unfold pi_eqs, pi_challenge. destruct (pi_lc i) as [x t2] eqn:El. cbn [fst snd].
  destruct (pe_scalars_eq chal t2 (skipr 1 g) (pi_pk i) (lc_ct x (pi_cts i)) (lc_g x (pi_coms i)) (pi_proof i)) as [s [E [L V]]].
  rewrite E. cbn [bind fst snd]. eexists. split; [reflexivity|]. split.
  - cbn [acc_ok]. rewrite !app_length, map_length, skipn_length, L, Ha. reflexivity.
  - rewrite acc_add by (try exact Ha; rewrite L; reflexivity). rewrite V. reflexivity.
Qed.
Lemma pe_fold_eq l : forall g a, Forall pi_fits l -> acc_ok a -> exists g' a', foldr_res (pe_step B H chal t) l (g, a) = Ok (g', a') /\
  acc_value a' = acc_value a + pe_bsum g l.
Proof.
  induction l as [|i l IH]; intros g a Hl Ha; cbn [foldr_res pe_bsum].
  - exists g, a. split; [reflexivity|]. symmetry. apply madd_0_r.
  - inversion Hl as [|? ? H1 H2]; subst. destruct (pe_step_eq g a i H1 Ha) as [a1 [E1 [O1 V1]]]. rewrite E1. cbn [bind].
    destruct (IH (skipr 4 g) a1 H2 O1) as [g' [a' [E' V']]]. exists g', a'. split; [exact E'|]. rewrite V', V1. symmetry. apply madd_assoc.
Qed.
Lemma pe_batch_eq g l : Forall pi_fits l -> pe_batch_verify B H chal t g l = if meqb (pe_bsum g l) m0 then Ok tt else Err.
Proof.
  intros Hl. unfold pe_batch_verify. destruct (pe_fold_eq l g (f0, f0, [], []) Hl eq_refl) as [g' [a' [E V]]].
  change (bind (foldr_res (pe_step B H chal t) l (g, ((f0, f0, [], []) : bacc))) (fun st => batch_check B H (snd st)) = if meqb (pe_bsum g l) m0 then Ok tt else Err). rewrite E. cbn [bind snd].
  rewrite batch_check_eq, V. cbn [acc_value app]. rewrite !me_cons, me_nil, !smul_0l, !madd_0. reflexivity.
Qed.
Lemma pe_fold_misfit l : forall g a, ~ Forall pi_fits l -> acc_ok a -> foldr_res (pe_step B H chal t) l (g, a) = Panic.
Proof.
  induction l as [|i l IH]; intros g a Hl Ha; [exfalso; apply Hl; constructor|]. cbn [foldr_res].
  destruct (Nat.eq_dec (length (pi_cts i)) (length (pi_coms i))) as [e|n].
  - destruct (pe_step_eq g a i e Ha) as [a1 [E1 [O1 _]]]. rewrite E1. cbn [bind]. apply IH; [|exact O1]. intros X. apply Hl. constructor; assumption.
  - destruct a as [[[sB sH] ss] es]. unfold pe_step. destruct (Nat.eqb_spec (length (pi_cts i)) (length (pi_coms i))); [contradiction|]. reflexivity.
Qed.
Lemma pe_batch_misfit g l : ~ Forall pi_fits l -> pe_batch_verify B H chal t g l = Panic.
Proof. intros Hl. unfold pe_batch_verify. change (bind (foldr_res (pe_step B H chal t) l (g, ((f0, f0, [], []) : bacc))) (fun st => batch_check B H (snd st)) = Panic). now rewrite pe_fold_misfit. Qed.

Lemma pe_bsum_ext l : forall g g' : rng, (forall i, g i = g' i) -> pe_bsum g l = pe_bsum g' l.
Proof.
  induction l as [|i l IH]; intros g g' E; cbn [pe_bsum]; [reflexivity|]. rewrite E. rewrite (wsum_ext _ (skipr 1 g) (skipr 1 g')) by (intros; apply E).
  rewrite (IH (skipr 4 g) (skipr 4 g')) by (intros; apply E). reflexivity.
Qed.
Lemma pe_bsum_zero l : pe_bsum (fun _ => f0) l = m0.
Proof. induction l as [|i l IH]; cbn [pe_bsum]; [reflexivity|]. unfold skipr. rewrite IH, smul_0l. apply madd_0. Qed.
Lemma pe_bsum_all l : (forall g, pe_bsum g l = m0) <-> Forall (fun i => zero_all (pi_eqs i)) l.
Proof.
  split.
  - induction l as [|i l IH]; intros X; constructor.
    + apply wsum_all. intros h. specialize (X (fun n => match n with O => f1 | S n' => if Nat.ltb n' 3 then h n' else f0 end)).
      cbn [pe_bsum] in X. rewrite smul_1 in X.
      rewrite (wsum_ext _ _ h) in X.
      * rewrite (pe_bsum_ext l _ (fun _ => f0)) in X; [|intros n; unfold skipr; cbn; destruct n; reflexivity]. rewrite pe_bsum_zero, madd_0_r in X. exact X.
      * intros n Hn. change (length (pi_eqs i)) with 3%nat in Hn. unfold skipr. cbn [Nat.add]. destruct (Nat.ltb_spec n 3); [reflexivity|lia].
    + apply IH. intros h. specialize (X (fun n => if Nat.ltb n 4 then f0 else h (n - 4)%nat)). cbn [pe_bsum] in X.
      rewrite (pe_bsum_ext l _ h) in X; [|intros n; unfold skipr; replace (4 + n - 4)%nat with n by lia; destruct (Nat.ltb_spec (4 + n) 4); [lia|reflexivity]].
      cbn [Nat.ltb Nat.leb] in X. rewrite smul_0l, madd_0 in X. exact X.
  - induction 1 as [|i l Hi Hl IH]; intros g; cbn [pe_bsum]; [reflexivity|]. rewrite IH, wsum_0, smul_0r by exact Hi. apply madd_0.
Qed.
End Instances.

(** The honest proof. *)
Lemma pe_wf pk ct com : well_formed (pe_elems B H pk ct com) pe_lhs 2.
Proof. intros row [<-|[<-|[<-|[]]]]; (split; [reflexivity|]); intros i Hi; cbn in *; lia. Qed.
Lemma pe_solves pk ct com m r : same_message B H pk ct com m r -> solves (pe_elems B H pk ct com) pe_lhs pe_rhs [m; r].
Proof.
  intros [E O]. unfold encrypts in E. unfold opens in O. destruct ct as [a b]. injection E as -> ->. subst com. split; [reflexivity|].
  intros [|[|[|[|j]]]] row k A C; cbn in A, C; try discriminate; injection A as <-; injection C as <-; unfold lin, pe_elems; cbn [combine map nth fst snd]; cbn [msum fold_right]; module_eq.
Qed.
Lemma pe_prove_ok chal t g m r pk ct com : same_message B H pk ct com m r ->
  exists p, pe_prove B H chal t g m r pk ct com = Ok p /\ zero_all (pe_eqs pk ct com p (pe_challenge chal t pk ct com p)).
Proof.
  intros Hs. unfold pe_prove. rewrite (prove_eq chal (t ++ [Tag 3]) g _ pe_lhs [m; r]) by apply pe_wf.
  cbn [bind fst snd s_coms s_resps length].
  set (c := chal _). 
  pose proof (honest_defects (pe_elems B H pk ct com) [m; r] g c pe_lhs pe_rhs (pe_solves _ _ _ _ _ Hs)) as D. cbn [length] in D.
  unfold honest_resps in *. cbn [combine map seq length] in *.
  unfold honest_coms, pe_lhs in *. cbn [map] in *.
  eexists. split; [reflexivity|]. rewrite <- pe_defects. exact D.
Qed.
Lemma same_comb pk x : forall m r cts coms, length m = length r -> length m = length cts -> length m = length coms ->
  (forall j a b c d, nth_error m j = Some a -> nth_error r j = Some b -> nth_error cts j = Some c -> nth_error coms j = Some d -> same_message B H pk c d a b) ->
  same_message B H pk (comb_ct x cts) (comb x coms) (dots x m) (dots x r).
Proof.
  intros m r cts coms. revert m r cts coms. induction x as [|y x IH]; intros m r cts coms L1 L2 L3 S.
  - split; [unfold encrypts, comb_ct|unfold opens]; cbn; [f_equal|]; module_eq.
  - destruct m as [|a m], r as [|b r], cts as [|[c1 c2] cts], coms as [|d coms]; try discriminate.
    + split; [unfold encrypts, comb_ct|unfold opens]; cbn; [f_equal|]; module_eq.
    + destruct (IH m r cts coms) as [E O]; try (now injection L1; injection L2; injection L3); [intros j; apply (S (Datatypes.S j))|].
      destruct (S 0%nat a b (c1, c2) d eq_refl eq_refl eq_refl eq_refl) as [E0 O0]. unfold encrypts, opens, comb_ct in *. cbn [map fst snd] in *. rewrite !comb_cons.
      injection E as Ea Eb. injection E0 as E0a E0b. rewrite Ea, Eb, O, E0a, E0b, O0. unfold dots. cbn [combine fold_right fst snd]. split; [unfold encrypts; f_equal|unfold opens]; module_eq.
Qed.
Lemma pe_extract pk ct com p p' c c' : c <> c' -> pe_e1 p = pe_e1 p' -> pe_c1 p = pe_c1 p' ->
  zero_all (pe_eqs pk ct com p c) -> zero_all (pe_eqs pk ct com p' c') ->
  same_message B H pk ct com ((pe_z1 p - pe_z1 p') / (c - c'))%F ((pe_z2 p - pe_z2 p') / (c - c'))%F.
Proof.
  intros Hc E1 E2 Z Z'. unfold pe_eqs in *. rewrite <- E1, <- E2 in Z'.
  inversion_clear Z as [|? ? A1 Z1]. inversion_clear Z1 as [|? ? A2 Z2]. inversion_clear Z2 as [|? ? A3 _].
  inversion_clear Z' as [|? ? B1 Z1]. inversion_clear Z1 as [|? ? B2 Z2]. inversion_clear Z2 as [|? ? B3 _].
  apply (proj1 (msub_0 _ _)) in A1, A2, A3, B1, B2, B3.
  assert (N : (c - c')%F <> f0) by (intros X; apply Hc; now apply (fsub_0 F)).
  destruct ct as [a b]. cbn [fst snd] in *. split; [unfold encrypts; f_equal|unfold opens]; apply (smul_cancel (c - c')%F _ _ N).
  - transitivity ((pe_z2 p *: B - fst (pe_e1 p)) - (pe_z2 p' *: B - fst (pe_e1 p))); [rewrite <- A1 at 1; rewrite <- B1; module_eq|].
    module_prep. repeat split; field; exact N.
  - transitivity ((pe_z1 p *: B + pe_z2 p *: pk - snd (pe_e1 p)) - (pe_z1 p' *: B + pe_z2 p' *: pk - snd (pe_e1 p))); [rewrite <- A2 at 1; rewrite <- B2; module_eq|].
    module_prep. repeat split; field; exact N.
  - transitivity ((pe_z1 p *: B + pe_z2 p *: H - pe_c1 p) - (pe_z1 p' *: B + pe_z2 p' *: H - pe_c1 p)); [rewrite <- A3 at 1; rewrite <- B3; module_eq|].
    module_prep. repeat split; field; exact N.
Qed.

(** ** Chaum-Pedersen *)
Definition cp_eqs (c1 c2 : G) (p : cp_proof) (c : F) : list G :=
  [cp_z1 p *: B + cp_z2 p *: H - c *: c1 - cp_c3 p; cp_z1 p *: B + cp_z3 p *: H - c *: c2 - cp_c4 p].
Lemma cp_defects c1 c2 p c :
  defects (cp_elems B H c1 c2) (s_resps (cp_sigma p)) c cp_lhs cp_rhs (s_coms (cp_sigma p)) = cp_eqs c1 c2 p c.
Proof.
  destruct p as [x y z1 z2 z3]. cbn [cp_sigma s_resps s_coms cp_c3 cp_c4 cp_z1 cp_z2 cp_z3].
  unfold cp_lhs, cp_rhs, cp_elems, cp_eqs. cbn [defects]. unfold defect, lin. cbn [combine map nth fst snd cp_c3 cp_c4 cp_z1 cp_z2 cp_z3]. cbn [msum fold_right].
  repeat f_equal; module_eq.
Qed.
Definition cp_challenge (chal : oracle) (t : transcript) (c1 c2 : G) (p : cp_proof) : F :=
  sigma_chal chal (t ++ [Tag 4]) (cp_elems B H c1 c2) (cp_sigma p).
(** The transcript after a Chaum-Pedersen proof. *)
Definition cp_after (t : transcript) (c1 c2 : G) (p : cp_proof) : transcript :=
  init_sigma_protocol (cp_elems B H c1 c2) (t ++ [Tag 4]) ++ map Com (s_coms (cp_sigma p)) ++ [Drawn].
Lemma cp_scalars_eq chal t g c1 c2 p : exists s,
  cp_verify_scalars B H chal t g c1 c2 p = Ok (s, cp_after t c1 c2 p, skipr 2 g) /\ length s = 6%nat /\
  multi_exp s [B; H; c1; c2; cp_c3 p; cp_c4 p] = wsum g (cp_eqs c1 c2 p (cp_challenge chal t c1 c2 p)).
Proof.
  unfold cp_verify_scalars. rewrite scalars_eq by (split; reflexivity). cbn [bind fst snd].
  set (s := collect_scalars _ _ _ _ _ _). exists (tl s).
  assert (Ls : length s = 7%nat) by apply (collect_len (G := G)). split; [reflexivity|]. split; [destruct s; [discriminate|cbn in *; lia]|].
  rewrite <- cp_defects. unfold cp_challenge. rewrite <- (collect_value g cp_lhs cp_rhs) by reflexivity. fold s.
  destruct s as [|x s]; [discriminate|]. unfold cp_elems. cbn [tl app cp_sigma s_coms]. rewrite (me_cons x s m0), smul_0r, madd_0. reflexivity.
Qed.
Lemma cp_verify_eq chal t g c1 c2 p :
  cp_verify B H chal t g c1 c2 p =
  if meqb (wsum g (cp_eqs c1 c2 p (cp_challenge chal t c1 c2 p))) m0 then Ok (cp_after t c1 c2 p, skipr 2 g) else Err.
Proof.
  unfold cp_verify. rewrite scalars_eq by (split; reflexivity). cbn [bind fst snd]. rewrite collect_value by reflexivity.
  rewrite cp_defects. reflexivity.
Qed.
Lemma cp_wf c1 c2 : well_formed (cp_elems B H c1 c2) cp_lhs 3.
Proof. intros row [<-|[<-|[]]]; (split; [reflexivity|]); intros i Hi; cbn in *; lia. Qed.
Lemma cp_solves c1 c2 v r1 r2 : opens B H c1 v r1 -> opens B H c2 v r2 -> solves (cp_elems B H c1 c2) cp_lhs cp_rhs [v; r1; r2].
Proof.
  intros -> ->. split; [reflexivity|].
  intros [|[|[|j]]] row k A C; cbn in A, C; try discriminate; injection A as <-; injection C as <-; unfold lin, cp_elems; cbn [combine map nth fst snd]; cbn [msum fold_right]; module_eq.
Qed.
Lemma cp_prove_ok chal t g v c1 r1 c2 r2 : opens B H c1 v r1 -> opens B H c2 v r2 ->
  exists p, cp_prove B H chal t g v c1 r1 c2 r2 = Ok (p, cp_after t c1 c2 p, skipr 3 g) /\ zero_all (cp_eqs c1 c2 p (cp_challenge chal t c1 c2 p)).
Proof.
  intros O1 O2. unfold cp_prove. rewrite (prove_eq chal (t ++ [Tag 4]) g _ cp_lhs [v; r1; r2]) by apply cp_wf.
  cbn [bind fst snd s_coms s_resps length].
  set (c := chal _). 
  pose proof (honest_defects (cp_elems B H c1 c2) [v; r1; r2] g c cp_lhs cp_rhs (cp_solves _ _ _ _ _ O1 O2)) as D. cbn [length] in D.
  unfold honest_resps in *. cbn [combine map seq length] in *.
  unfold honest_coms, cp_lhs in *. cbn [map] in *.
  match goal with |- exists p, Ok (?q, _, _) = _ /\ _ => exists q end. split; [|rewrite <- cp_defects; exact D]. unfold cp_after. cbn [cp_sigma s_coms cp_c3 cp_c4]. rewrite !app_assoc. reflexivity.
Qed.
Lemma cp_extract c1 c2 p p' c c' : c <> c' -> cp_c3 p = cp_c3 p' -> cp_c4 p = cp_c4 p' ->
  zero_all (cp_eqs c1 c2 p c) -> zero_all (cp_eqs c1 c2 p' c') ->
  opens B H c1 ((cp_z1 p - cp_z1 p') / (c - c'))%F ((cp_z2 p - cp_z2 p') / (c - c'))%F /\
  opens B H c2 ((cp_z1 p - cp_z1 p') / (c - c'))%F ((cp_z3 p - cp_z3 p') / (c - c'))%F.
Proof.
  intros Hc E1 E2 Z Z'. unfold cp_eqs in *. rewrite <- E1, <- E2 in Z'.
  inversion_clear Z as [|? ? A1 Z1]. inversion_clear Z1 as [|? ? A2 _].
  inversion_clear Z' as [|? ? B1 Z1]. inversion_clear Z1 as [|? ? B2 _].
  apply (proj1 (msub_0 _ _)) in A1, A2, B1, B2.
  assert (N : (c - c')%F <> f0) by (intros X; apply Hc; now apply (fsub_0 F)).
  split; unfold opens; apply (smul_cancel (c - c')%F _ _ N).
  - transitivity ((cp_z1 p *: B + cp_z2 p *: H - cp_c3 p) - (cp_z1 p' *: B + cp_z2 p' *: H - cp_c3 p)); [rewrite <- A1 at 1; rewrite <- B1; module_eq|].
    module_prep. repeat split; field; exact N.
  - transitivity ((cp_z1 p *: B + cp_z3 p *: H - cp_c4 p) - (cp_z1 p' *: B + cp_z3 p' *: H - cp_c4 p)); [rewrite <- A2 at 1; rewrite <- B2; module_eq|].
    module_prep. repeat split; field; exact N.
Qed.

Section Multi.
Context (chal : oracle (G := G)) (t : transcript (G := G)).
(** Transcript, combination and equations of the second part of a proof. *)
Definition cpx_t1 (coms : list G) : transcript := init_cp_multiple B H t coms.
Definition cpx_t2 (coms : list G) (p : cpx_proof) : transcript := cp_after (cpx_t1 coms) (nth 0 coms m0) (nth 1 coms m0) (x_eq p).
Definition cpx_lc (coms : list G) (p : cpx_proof) : list F * transcript := lc_scalars chal (cpx_t2 coms p) (length coms - 2).
Definition cpx_d (coms : list G) (p : cpx_proof) : G := cp_d (fst (cpx_lc coms p)) coms (nth 0 coms m0).
Definition cpx_eqs1 (coms : list G) (p : cpx_proof) : list G :=
  cp_eqs (nth 0 coms m0) (nth 1 coms m0) (x_eq p) (cp_challenge chal (cpx_t1 coms) (nth 0 coms m0) (nth 1 coms m0) (x_eq p)).
Definition cpx_eqs2 (coms : list G) (p : cpx_proof) (pz : cp_proof) : list G :=
  cp_eqs (cpx_d coms p) m0 pz (cp_challenge chal (snd (cpx_lc coms p)) (cpx_d coms p) m0 pz).
(** The shape of the proof matches the number of commitments, and the equations hold. *)
Definition cpx_shape (coms : list G) (p : cpx_proof (G := G)) : Prop :=
  (2 <= length coms)%nat /\ (x_zero p = None <-> length coms = 2%nat).
Lemma cp_verify_multiple_eq g coms p : (2 <= length coms)%nat ->
  cp_verify_multiple B H chal t g coms p =
  if meqb (wsum g (cpx_eqs1 coms p)) m0 then
    match x_zero p with
    | None => if Nat.eqb (length coms) 2 then Ok tt else Err
    | Some pz => if Nat.eqb (length coms) 2 then Err else if meqb (wsum (skipr 2 g) (cpx_eqs2 coms p pz)) m0 then Ok tt else Err
    end
  else Err.
Proof.
  intros L. destruct coms as [|c0 [|c1 coms]]; cbn in L; try lia. unfold cp_verify_multiple.
  rewrite cp_verify_eq. fold (cpx_t1 (c0 :: c1 :: coms)).
  change (cp_eqs c0 c1 (x_eq p) (cp_challenge chal (cpx_t1 (c0 :: c1 :: coms)) c0 c1 (x_eq p))) with (cpx_eqs1 (c0 :: c1 :: coms) p).
  destruct (meqb (wsum g (cpx_eqs1 (c0 :: c1 :: coms) p)) m0); [|reflexivity]. cbn [bind fst snd].
  destruct (x_zero p) as [pz|]; destruct (Nat.eqb (length (c0 :: c1 :: coms)) 2) eqn:E2; try reflexivity.
  change (cp_after (cpx_t1 (c0 :: c1 :: coms)) c0 c1 (x_eq p)) with (cpx_t2 (c0 :: c1 :: coms) p).
  fold (cpx_lc (c0 :: c1 :: coms) p). unfold cpx_eqs2, cpx_d. cbn [nth]. destruct (cpx_lc (c0 :: c1 :: coms) p) as [a t3]. cbn [fst snd].
  rewrite cp_verify_eq. destruct (meqb _ m0); reflexivity.
Qed.
Lemma cp_multiple_all coms p : (2 <= length coms)%nat ->
  ((forall g, cp_verify_multiple B H chal t g coms p = Ok tt) <->
   zero_all (cpx_eqs1 coms p) /\ match x_zero p with None => length coms = 2%nat | Some pz => length coms <> 2%nat /\ zero_all (cpx_eqs2 coms p pz) end).
Proof.
  intros L. split.
  - intros X. assert (Y : forall g, wsum g (cpx_eqs1 coms p) = m0).
    { intros g. specialize (X g). rewrite cp_verify_multiple_eq in X by exact L. destruct (meqb_spec (wsum g (cpx_eqs1 coms p)) m0) as [e|n]; [exact e|discriminate]. }
    split; [now apply wsum_all|]. destruct (x_zero p) as [pz|] eqn:Ez.
    + assert (N : length coms <> 2%nat).
      { specialize (X (fun _ => f0)). rewrite cp_verify_multiple_eq, Ez in X by exact L. destruct (meqb _ m0); [|discriminate]. now destruct (Nat.eqb_spec (length coms) 2). }
      split; [exact N|]. apply wsum_all. intros h. specialize (X (fun n => h (n - 2)%nat)). rewrite cp_verify_multiple_eq, Y, Ez in X by exact L.
      destruct (meqb (m0 : G) m0); [|discriminate]. destruct (Nat.eqb_spec (length coms) 2); [contradiction|].
      rewrite (wsum_ext _ _ h) in X by (intros i _; unfold skipr; f_equal; lia). destruct (meqb_spec (wsum h (cpx_eqs2 coms p pz)) m0); [assumption|discriminate].
    + specialize (X (fun _ => f0)). rewrite cp_verify_multiple_eq, Ez in X by exact L. destruct (meqb _ m0); [|discriminate]. now destruct (Nat.eqb_spec (length coms) 2).
  - intros [Z1 Z2] g. rewrite cp_verify_multiple_eq by exact L. rewrite (wsum_0 g) by exact Z1. destruct (meqb_spec (m0 : G) m0) as [_|n]; [|contradiction].
    destruct (x_zero p) as [pz|].
    + destruct Z2 as [N Z2]. destruct (Nat.eqb_spec (length coms) 2); [contradiction|]. rewrite wsum_0 by exact Z2. destruct (meqb_spec (m0 : G) m0) as [_|n']; [reflexivity|contradiction].
    + rewrite Z2. reflexivity.
Qed.

(** The batch: sum of the instances' equations. *)
Definition cpx_sum (g : rng) (coms : list G) (p : cpx_proof) : G :=
  match x_zero p with
  | None => wsum g (cpx_eqs1 coms p)
  | Some pz => wsum g (cpx_eqs1 coms p) + g 4%nat *: wsum (skipr 2 g) (cpx_eqs2 coms p pz)
  end.
Definition cpx_draws (p : cpx_proof (G := G)) : nat := match x_zero p with None => 2 | Some _ => 5 end.
Fixpoint cp_bsum (g : rng) (l : list (list G * cpx_proof)) : G :=
  match l with
  | [] => m0
  | i :: l' => let k := cpx_draws (snd i) in g k *: cpx_sum g (fst i) (snd i) + cp_bsum (skipr (S k) g) l'
  end.
Lemma map_nth_skip (al : F) (s : list F) n : length s = (2 + n)%nat ->
  map (fun k => (nth k s f0 * al)%F) (seq 2 n) = map (fun x => (al * x)%F) (skipn 2 s).
Proof.
  intros L. destruct s as [|a [|b s]]; try discriminate. cbn [skipn]. injection L as L. subst n.
  rewrite <- seq_shift, map_map, <- seq_shift, map_map. cbn [nth].
  induction s as [|x s IH]; [reflexivity|]. cbn [length seq map nth]. rewrite <- seq_shift, map_map. cbn [nth]. rewrite IH. f_equal. ring.
Qed.
Lemma cp_step_eq g a i : cpx_shape (fst i) (snd i) -> acc_ok a -> exists a', cp_step B H chal t (g, a) i = Ok (skipr (S (cpx_draws (snd i))) g, a') /\ acc_ok a' /\
  acc_value a' = acc_value a + g (cpx_draws (snd i)) *: cpx_sum g (fst i) (snd i).
Proof.
  intros [L Sh] Ha. destruct i as [coms p]. cbn [fst snd] in *. destruct a as [[[sB sH] ss] es]. cbn [acc_ok] in Ha.
  destruct coms as [|c0 [|c1 coms]]; cbn in L; try lia. unfold cp_step, cp_multiple_scalars.
  fold (cpx_t1 (c0 :: c1 :: coms)).
  destruct (cp_scalars_eq chal (cpx_t1 (c0 :: c1 :: coms)) g c0 c1 (x_eq p)) as [s [E [Ls V]]]. rewrite E. cbn [bind].
  change (cp_eqs c0 c1 (x_eq p) (cp_challenge chal (cpx_t1 (c0 :: c1 :: coms)) c0 c1 (x_eq p))) with (cpx_eqs1 (c0 :: c1 :: coms) p) in V.
  unfold cpx_draws, cpx_sum. destruct (x_zero p) as [pz|] eqn:Ez.
  - destruct (Nat.eqb_spec (length (c0 :: c1 :: coms)) 2) as [e|n]; [exfalso; destruct Sh as [_ Sh]; discriminate (Sh e)|].
    change (cp_after (cpx_t1 (c0 :: c1 :: coms)) c0 c1 (x_eq p)) with (cpx_t2 (c0 :: c1 :: coms) p).
    fold (cpx_lc (c0 :: c1 :: coms) p). unfold cpx_eqs2, cpx_d. cbn [nth]. destruct (cpx_lc (c0 :: c1 :: coms) p) as [av t3]. cbn [fst snd].
    set (d := cp_d av (c0 :: c1 :: coms) c0).
    destruct (cp_scalars_eq chal t3 (skipr 2 g) d m0 pz) as [cs [E' [Ls' V']]]. rewrite E'. cbn [bind].
    destruct s as [|s0 [|s1 [|s2 [|s3 [|s4 [|s5 [|]]]]]]]; try discriminate. destruct cs as [|q0 [|q1 [|q2 [|q3 [|q4 [|q5 [|]]]]]]]; try discriminate.
    cbn [nth skipn app map]. unfold skipr in *. cbn [Nat.add] in *.
    eexists. split; [reflexivity|]. split; [cbn [acc_ok]; rewrite !app_length, Ha; reflexivity|].
    cbn [acc_value app]. rewrite <- V, <- V'. cbn [app]. rewrite !me_cons, !me_app by exact Ha. rewrite !me_cons, !me_nil. module_eq.
  - destruct (Nat.eqb_spec (length (c0 :: c1 :: coms)) 2) as [e|n]; [|exfalso; apply n, Sh; reflexivity].
    destruct s as [|s0 [|s1 [|s2 [|s3 [|s4 [|s5 [|]]]]]]]; try discriminate.
    cbn [bind nth skipn app map]. unfold skipr. cbn [Nat.add].
    eexists. split; [reflexivity|]. split; [cbn [acc_ok]; rewrite !app_length, Ha; reflexivity|].
    cbn [acc_value app]. rewrite <- V. cbn [app]. rewrite !me_cons, !me_app by exact Ha. rewrite !me_cons, !me_nil. module_eq.
Qed.
Lemma cp_fold_eq l : forall g a, Forall (fun i => cpx_shape (fst i) (snd i)) l -> acc_ok a -> exists g' a', foldr_res (cp_step B H chal t) l (g, a) = Ok (g', a') /\
  acc_value a' = acc_value a + cp_bsum g l.
Proof.
  induction l as [|i l IH]; intros g a Hl Ha; cbn [foldr_res cp_bsum].
  - exists g, a. split; [reflexivity|]. symmetry. apply madd_0_r.
  - inversion Hl as [|? ? H1 H2]; subst. destruct (cp_step_eq g a i H1 Ha) as [a1 [E1 [O1 V1]]]. rewrite E1. cbn [bind].
    destruct (IH (skipr (S (cpx_draws (snd i))) g) a1 H2 O1) as [g' [a' [E' V']]]. exists g', a'. split; [exact E'|]. rewrite V', V1. symmetry. apply madd_assoc.
Qed.
Lemma cp_batch_eq g l : Forall (fun i => cpx_shape (fst i) (snd i)) l ->
  cp_batch_verify B H chal t g l = if meqb (cp_bsum g l) m0 then Ok tt else Err.
Proof.
  intros Hl. unfold cp_batch_verify. destruct (cp_fold_eq l g (f0, f0, [], []) Hl eq_refl) as [g' [a' [E V]]].
  change (bind (foldr_res (cp_step B H chal t) l (g, ((f0, f0, [], []) : bacc))) (fun st => batch_check B H (snd st)) = if meqb (cp_bsum g l) m0 then Ok tt else Err). rewrite E. cbn [bind snd].
  rewrite batch_check_eq, V. cbn [acc_value app]. rewrite !me_cons, me_nil, !smul_0l, !madd_0. reflexivity.
Qed.
(** A batch with a proof of the wrong shape is never accepted. *)
Lemma cp_step_shape st i st' : cp_step B H chal t st i = Ok st' -> cpx_shape (fst i) (snd i).
Proof.
  destruct st as [g [[[sB sH] ss] es]], i as [coms p]. unfold cp_step. intros X. apply bind_ok in X. destruct X as [x [X _]]. cbn [fst snd].
  unfold cp_multiple_scalars in X. destruct coms as [|c0 [|c1 coms]]; try discriminate. split; [cbn; lia|].
  apply bind_ok in X. destruct X as [[[s t2] g2] [_ X]]. destruct (Nat.eqb_spec (length (c0 :: c1 :: coms)) 2) as [e|n]; destruct (x_zero p); try discriminate.
  - split; auto.
  - split; [discriminate|contradiction].
Qed.
Lemma cp_batch_shape g l : cp_batch_verify B H chal t g l = Ok tt -> Forall (fun i => cpx_shape (fst i) (snd i)) l.
Proof.
  unfold cp_batch_verify. intros X. apply bind_ok in X. destruct X as [st [X _]]. revert X. match goal with |- foldr_res _ _ ?z = _ -> _ => generalize z end.
  clear g. revert st. induction l as [|i l IH]; intros st s0 X; constructor; cbn [foldr_res] in X; apply bind_ok in X; destruct X as [s1 [X1 X2]].
  - eapply cp_step_shape, X1.
  - eapply IH, X2.
Qed.
Lemma cpx_sum_ext coms p : forall g g' : rng, (forall i, (i < cpx_draws p)%nat -> g i = g' i) -> cpx_sum g coms p = cpx_sum g' coms p.
Proof.
  intros g g' E. unfold cpx_sum, cpx_draws in *. destruct (x_zero p) as [pz|].
  - rewrite (E 4%nat) by lia. rewrite (wsum_ext (cpx_eqs1 coms p) g g') by (change (length (cpx_eqs1 coms p)) with 2%nat; intros; apply E; lia).
    rewrite (wsum_ext (cpx_eqs2 coms p pz) (skipr 2 g) (skipr 2 g')) by (change (length (cpx_eqs2 coms p pz)) with 2%nat; intros; apply E; lia). reflexivity.
  - apply wsum_ext. change (length (cpx_eqs1 coms p)) with 2%nat. exact E.
Qed.
Lemma cp_bsum_ext l : forall g g' : rng, (forall i, g i = g' i) -> cp_bsum g l = cp_bsum g' l.
Proof.
  induction l as [|i l IH]; intros g g' E; cbn [cp_bsum]; [reflexivity|]. rewrite E, (cpx_sum_ext _ _ g g') by (intros; apply E).
  f_equal. apply IH. intros n. apply E.
Qed.
Lemma cp_bsum_zero l : cp_bsum (fun _ => f0) l = m0.
Proof. induction l as [|i l IH]; cbn [cp_bsum]; [reflexivity|]. unfold skipr. rewrite IH, smul_0l. apply madd_0. Qed.
Lemma cpx_sum_all coms p : (forall g, cpx_sum g coms p = m0) <-> zero_all (cpx_eqs1 coms p) /\ match x_zero p with None => True | Some pz => zero_all (cpx_eqs2 coms p pz) end.
Proof.
  unfold cpx_sum. destruct (x_zero p) as [pz|].
  - split.
    + intros X. assert (Z1 : zero_all (cpx_eqs1 coms p)).
      { apply wsum_all. intros h. specialize (X (fun n => if Nat.ltb n 2 then h n else f0)). cbn [Nat.ltb Nat.leb] in X. rewrite smul_0l, madd_0_r in X.
        rewrite (wsum_ext _ _ h) in X; [exact X|]. change (length (cpx_eqs1 coms p)) with 2%nat. intros i Hi. destruct i as [|[|i]]; [reflexivity..|lia]. }
      split; [exact Z1|]. apply wsum_all. intros h. specialize (X (fun n => if Nat.eqb n 4 then f1 else h (n - 2)%nat)). cbn [Nat.eqb] in X.
      rewrite wsum_0, madd_0, smul_1 in X by exact Z1. rewrite (wsum_ext _ _ h) in X; [exact X|]. change (length (cpx_eqs2 coms p pz)) with 2%nat.
      intros i Hi. unfold skipr. destruct i as [|[|i]]; [reflexivity..|lia].
    + intros [Z1 Z2] g. rewrite !wsum_0, smul_0r by assumption. apply madd_0.
  - split; [intros X; split; [now apply wsum_all|exact I]|]. intros [Z _] g. now apply wsum_0.
Qed.
Lemma cp_bsum_all l : (forall g, cp_bsum g l = m0) <-> Forall (fun i => forall g, cpx_sum g (fst i) (snd i) = m0) l.
Proof.
  split.
  - induction l as [|i l IH]; intros X; constructor.
    + intros h. set (k := cpx_draws (snd i)). specialize (X (fun n => if Nat.ltb n k then h n else if Nat.eqb n k then f1 else f0)).
      cbn [cp_bsum] in X. fold k in X. rewrite (Nat.ltb_irrefl k), Nat.eqb_refl, smul_1 in X.
      rewrite (cp_bsum_ext l _ (fun _ => f0)), cp_bsum_zero, madd_0_r in X.
      * rewrite <- X. apply cpx_sum_ext. intros n Hn; fold k in Hn; destruct (Nat.ltb_spec n k); [reflexivity|lia].
      * intros n. unfold skipr. destruct (Nat.ltb_spec (S k + n) k); [lia|]. destruct (Nat.eqb_spec (S k + n) k); [lia|reflexivity].
    + apply IH. intros h. set (k := cpx_draws (snd i)). specialize (X (fun n => if Nat.leb n k then f0 else h (n - S k)%nat)).
      cbn [cp_bsum] in X. fold k in X. rewrite Nat.leb_refl, smul_0l, madd_0 in X. rewrite (cp_bsum_ext l _ h) in X; [exact X|].
      intros n. unfold skipr. destruct (Nat.leb_spec (S k + n) k); [lia|]. f_equal. lia.
  - induction 1 as [|i l Hi Hl IH]; intros g; cbn [cp_bsum]; [reflexivity|]. rewrite IH, Hi, smul_0r. apply madd_0.
Qed.
End Multi.

Lemma cp_d_comb a (coms : list G) (c0 : G) : cp_d a coms c0 = comb a (map (fun c => c0 - c) (skipn 2 coms)).
Proof.
  unfold cp_d, comb. rewrite <- (madd_0 _ _ (msum _)). generalize (m0 : G) as d. generalize (skipn 2 coms) as l. intros l. revert l.
  induction a as [|x a IH]; intros [|c l] d; cbn [combine map fold_left]; try (symmetry; apply madd_0_r). rewrite IH, msum_cons. apply eq_sym, madd_assoc.
Qed.
Lemma cp_d_opens a : forall coms bl v c0 r0, opens B H c0 v r0 -> length coms = length bl ->
  (forall i c r, nth_error coms i = Some c -> nth_error bl i = Some r -> opens B H c v r) ->
  opens B H (cp_d a coms c0) f0 (cp_z a bl r0).
Proof.
  intros coms bl v c0 r0 O0 L O. unfold cp_d, cp_z, opens.
  assert (O' : forall i c r, nth_error (skipn 2 coms) i = Some c -> nth_error (skipn 2 bl) i = Some r -> opens B H c v r).
  { assert (Nx : forall A (l : list A) i, nth_error (skipn 2 l) i = nth_error l (2 + i)) by (intros A [|? [|? l]] i; [destruct i; reflexivity..|reflexivity]).
    intros i c r. rewrite !Nx. apply O. }
  assert (L' : length (skipn 2 coms) = length (skipn 2 bl)) by (rewrite !skipn_length; lia).
  revert O' L'. generalize (skipn 2 coms) as cs. generalize (skipn 2 bl) as bs. clear O L coms bl.
  assert (Gn : forall bs cs d z, (forall i c r, nth_error cs i = Some c -> nth_error bs i = Some r -> opens B H c v r) -> length cs = length bs ->
    d = f0 *: B + z *: H ->
    fold_left (fun d ac => d + fst ac *: (c0 - snd ac)) (combine a cs) d = f0 *: B + fold_left (fun z ar => (z + (r0 - snd ar) * fst ar)%F) (combine a bs) z *: H).
  { induction a as [|x a IH]; intros bs cs d z O L E; [exact E|]. destruct cs as [|c cs], bs as [|b bs]; try discriminate; cbn [combine fold_left]; [exact E|].
    cbn [fst snd]. apply IH; [intros i; apply (O (S i))|now injection L|]. rewrite E. pose proof (O 0%nat c b eq_refl eq_refl) as Oc. unfold opens in *. rewrite Oc, O0. module_eq. }
  intros bs cs O L. apply (Gn bs cs); auto. module_eq.
Qed.

(** ** Delegated Schnorr *)
Lemma ds_check_ok beta : forall resp coms rand, length resp = length coms -> length coms = length rand ->
  (ds_check B H beta (combine (combine resp coms) rand) = true <->
   forall i s c rd, nth_error resp i = Some s -> nth_error coms i = Some c -> nth_error rand i = Some rd -> commit B H (fst s) (snd s) = beta *: c + rd).
Proof.
  induction resp as [|s resp IH]; intros [|c coms] [|rd rand] L1 L2; try discriminate; cbn [combine ds_check].
  - split; [intros _ [|i] s c rd X; discriminate|reflexivity].
  - rewrite Bool.andb_true_iff, IH by (now injection L1; injection L2). split.
    + intros [X Y] [|i] s' c' rd' A1 A2 A3; cbn in A1, A2, A3; [|now apply (Y i)]. injection A1 as <-. injection A2 as <-. injection A3 as <-.
      now destruct (meqb_spec (commit B H (fst s) (snd s)) (beta *: c + rd)).
    + intros X. split; [|intros i; apply (X (S i))]. pose proof (X 0%nat s c rd eq_refl eq_refl eq_refl) as Y. destruct (meqb_spec (commit B H (fst s) (snd s)) (beta *: c + rd)); [reflexivity|contradiction].
Qed.
End Uses.
