From Coq Require Import List Arith NArith Bool Lia Field Ring.
From Verif Require Import Base Field SigmaModel SigmaSpec.
Import ListNotations.
Local Open Scope F_scope.

Section Sums.
Context {F : Field} {G : Mod F}.
Add Field Fq : (f_th F).
Local Open Scope M_scope.
Implicit Types (s : list F) (e : list G).

Lemma msum_cons (a : G) l : msum (a :: l) = a + msum l. Proof. reflexivity. Qed.
Lemma me_nil e : multi_exp [] e = m0. Proof. reflexivity. Qed.
Lemma me_cons x s a e : multi_exp (x :: s) (a :: e) = x *: a + multi_exp s e. Proof. reflexivity. Qed.
Lemma me_app s : forall e s' e', length s = length e -> multi_exp (s ++ s') (e ++ e') = multi_exp s e + multi_exp s' e'.
Proof.
  induction s as [|x s IH]; intros [|a e] s' e' L; try discriminate; cbn [app].
  - rewrite me_nil. symmetry. apply madd_0.
  - rewrite !me_cons, IH by (now injection L). apply madd_assoc.
Qed.
Lemma me_scal c s : forall e, multi_exp (map (fun x => (c * x)%F) s) e = c *: multi_exp s e.
Proof.
  induction s as [|x s IH]; intros [|a e]; cbn [map]; try (symmetry; apply smul_0r).
  rewrite !me_cons, IH, smul_addr, smul_smul. reflexivity.
Qed.
Lemma me_zero n : forall e, multi_exp (repeat f0 n) e = m0.
Proof.
  induction n as [|n IH]; intros [|a e]; cbn [repeat]; try reflexivity. rewrite me_cons, IH, smul_0l. apply madd_0.
Qed.

(** ** Updates of scalar vectors *)
Lemma mapi_len (f : nat -> F -> F) l : forall k, length (mapi k f l) = length l.
Proof. induction l as [|x l IH]; intros k; cbn; [reflexivity|]. now rewrite IH. Qed.
Lemma mapi_mapi f h l : forall k, mapi k f (mapi k h l) = mapi (F := F) k (fun i x => f i (h i x)) l.
Proof. induction l as [|x l IH]; intros k; cbn; [reflexivity|]. now rewrite IH. Qed.
Lemma mapi_ext f h l : (forall i x, f i x = h i x) -> forall k, mapi (F := F) k f l = mapi k h l.
Proof. intros E. induction l as [|x l IH]; intros k; cbn; [reflexivity|]. now rewrite IH, E. Qed.
Lemma mapi_id l : forall k, mapi (F := F) k (fun _ x => x) l = l.
Proof. induction l as [|x l IH]; intros k; cbn; [reflexivity|]. now rewrite IH. Qed.
Lemma mapi_point j c l : forall k e, length l = length e ->
  multi_exp (mapi k (fun i x => if Nat.eqb i j then (x + c)%F else x) l) e =
  multi_exp l e + (if Nat.leb k j then c *: nth (j - k) e m0 else m0).
Proof.
  induction l as [|x l IH]; intros k [|a e] L; try discriminate; cbn [mapi].
  - rewrite me_nil. destruct (Nat.leb k j); [|symmetry; apply madd_0]. destruct (j - k)%nat; cbn; rewrite smul_0r; symmetry; apply madd_0.
  - rewrite !me_cons, IH by (now injection L). destruct (Nat.eqb_spec k j) as [->|n].
    + rewrite Nat.leb_refl, Nat.sub_diag. cbn [nth]. destruct (Nat.leb_spec (S j) j); [lia|]. module_eq.
    + destruct (Nat.leb_spec (S k) j); destruct (Nat.leb_spec k j); try lia.
      * replace (j - k)%nat with (S (j - S k)) by lia. cbn [nth]. module_eq.
      * module_eq.
Qed.
Lemma mapi_pairs alpha ps : forall l e, length l = length e ->
  multi_exp (mapi 0 (fun i x => fold_left (fun x kr => if Nat.eqb i (fst kr) then (x + alpha * snd kr)%F else x) ps x) l) e =
  multi_exp l e + alpha *: msum (map (fun ix => snd ix *: nth (fst ix) e m0) ps).
Proof.
  induction ps as [|p ps IH]; intros l e L; cbn [fold_left map].
  - rewrite mapi_id. cbn. rewrite smul_0r. symmetry. apply madd_0_r.
  - rewrite <- (mapi_mapi (fun i x => fold_left (fun x kr => if Nat.eqb i (fst kr) then (x + alpha * snd kr)%F else x) ps x)
        (fun i x => if Nat.eqb i (fst p) then (x + alpha * snd p)%F else x)).
    rewrite IH by (now rewrite mapi_len). rewrite mapi_point by exact L. cbn [Nat.leb]. rewrite Nat.sub_0_r, msum_cons. module_eq.
Qed.
Lemma mapi_minus f j c l : forall k, (forall i x, f i x = if Nat.eqb i j then (x - c)%F else x) ->
  mapi k f l = mapi (F := F) k (fun i x => if Nat.eqb i j then (x + - c)%F else x) l.
Proof. intros k E. apply mapi_ext. intros i x. rewrite E. destruct (Nat.eqb i j); [ring|reflexivity]. Qed.

(** ** The scalars of the verifier *)
(** Equation of one row: what must vanish. *)
Definition defect (elems : list G) (resps : list F) (c : F) (row : list nat) (r : nat) (com : G) : G :=
  lin elems row resps - c *: nth r elems m0 - com.
Fixpoint defects (elems : list G) (resps : list F) (c : F) (lhs : list (list nat)) (rhs : list nat) (coms : list G) : list G :=
  match lhs, rhs, coms with
  | row :: lhs', r :: rhs', com :: coms' => defect elems resps c row r com :: defects elems resps c lhs' rhs' coms'
  | _, _, _ => []
  end.
Fixpoint wsum (g : rng) (l : list G) : G :=
  match l with [] => m0 | a :: l' => g 0%nat *: a + wsum (skipr 1 g) l' end.

Lemma rows_alphas (lhs : list (list nat)) resps : forall j g (s : list F * list F), snd (rows_pass j lhs resps g s) = map g (seq 0 (length lhs)).
Proof.
  induction lhs as [|row lhs IH]; intros j g s; cbn [rows_pass snd length seq map]; [reflexivity|].
  rewrite IH, <- seq_shift, map_map. reflexivity.
Qed.
Lemma rows_len (lhs : list (list nat)) resps : forall j g (s : list F * list F),
  length (fst (fst (rows_pass j lhs resps g s))) = length (fst s) /\ length (snd (fst (rows_pass j lhs resps g s))) = length (snd s).
Proof.
  induction lhs as [|row lhs IH]; intros j g s; cbn [rows_pass fst snd]; [auto|].
  destruct (IH (S j) (skipr 1 g) (mapi 0 (fun i x => fold_left (fun x kr => if Nat.eqb i (fst kr) then (x + g 0%nat * snd kr)%F else x) (combine row resps) x) (fst s),
    mapi 0 (fun i x => if Nat.eqb i j then (x - g 0%nat)%F else x) (snd s))) as [A B].
  cbn [fst snd] in A, B. rewrite !mapi_len in A. rewrite !mapi_len in B. auto.
Qed.
Fixpoint wlin (g : rng) (lhs : list (list nat)) (elems : list G) (resps : list F) : G :=
  match lhs with [] => m0 | row :: l' => g 0%nat *: lin elems row resps + wlin (skipr 1 g) l' elems resps end.
Fixpoint wcom (g : rng) (n j : nat) (coms : list G) : G :=
  match n with O => m0 | S n' => g 0%nat *: nth j coms m0 + wcom (skipr 1 g) n' (S j) coms end.
Lemma rows_value lhs resps elems coms : forall j g (s : list F * list F), length (fst s) = length elems -> length (snd s) = length coms ->
  multi_exp (fst (fst (rows_pass j lhs resps g s))) elems = multi_exp (fst s) elems + wlin g lhs elems resps /\
  multi_exp (snd (fst (rows_pass j lhs resps g s))) coms = multi_exp (snd s) coms - wcom g (length lhs) j coms.
Proof.
  induction lhs as [|row lhs IH]; intros j g s L1 L2; cbn [rows_pass fst snd wlin wcom length].
  - split; [symmetry; apply madd_0_r|module_eq].
  - destruct (IH (S j) (skipr 1 g) (mapi 0 (fun i x => fold_left (fun x kr => if Nat.eqb i (fst kr) then (x + g 0%nat * snd kr)%F else x) (combine row resps) x) (fst s),
      mapi 0 (fun i x => if Nat.eqb i j then (x - g 0%nat)%F else x) (snd s))) as [A B]; cbn [fst snd]; [now rewrite mapi_len..|].
    cbn [fst snd] in A, B. rewrite A, B. rewrite mapi_pairs by exact L1. rewrite (mapi_minus _ j (g 0%nat)) by reflexivity.
    rewrite mapi_point by exact L2. cbn [Nat.leb]. rewrite Nat.sub_0_r. fold (lin elems row resps). split; module_eq.
Qed.
Lemma rhs_pass (c : F) (elems : list G) : forall ps (se : list F), length se = length elems ->
  length (fold_left (fun se ka => mapi 0 (fun i x => if Nat.eqb i (fst ka) then (x - snd ka * c)%F else x) se) ps se) = length elems /\
  multi_exp (fold_left (fun se ka => mapi 0 (fun i x => if Nat.eqb i (fst ka) then (x - snd ka * c)%F else x) se) ps se) elems =
  multi_exp se elems - c *: msum (map (fun ka => snd ka *: nth (fst ka) elems m0) ps).
Proof.
  induction ps as [|p ps IH]; intros se L; cbn [fold_left map].
  - split; [exact L|]. cbn. module_eq.
  - destruct (IH (mapi 0 (fun i x => if Nat.eqb i (fst p) then (x - snd p * c)%F else x) se)) as [A B]; [now rewrite mapi_len|].
    split; [exact A|]. rewrite B. rewrite (mapi_minus _ (fst p) (snd p * c)%F) by reflexivity. rewrite mapi_point by exact L.
    cbn [Nat.leb]. rewrite Nat.sub_0_r, msum_cons. module_eq.
Qed.
Lemma wsum_defects (elems : list G) (resps : list F) c : forall lhs rhs coms g cs0, length lhs = length rhs -> length rhs = length coms ->
  wsum g (defects elems resps c lhs rhs coms) =
  wlin g lhs elems resps - c *: msum (map (fun ka => snd ka *: nth (fst ka) elems m0) (combine rhs (map g (seq 0 (length lhs)))))
    - wcom g (length lhs) (length cs0) (cs0 ++ coms).
Proof.
  induction lhs as [|row lhs IH]; intros [|r rhs] [|com coms] g cs0 L1 L2; try discriminate; cbn [defects wsum wlin wcom length seq map combine].
  - cbn. module_eq.
  - injection L1 as L1. injection L2 as L2. cbn [fst snd]. rewrite msum_cons. rewrite (IH rhs coms (skipr 1 g) (cs0 ++ [com]) L1 L2).
    rewrite app_length. cbn [length]. rewrite Nat.add_1_r, <- app_assoc. cbn [app].
    rewrite <- seq_shift, map_map. cbn [skipr Nat.add fst snd].
    rewrite app_nth2, Nat.sub_diag by lia. cbn [nth]. unfold defect.
    replace (map (fun x : nat => g (S x)) (seq 0 (length lhs))) with (map (skipr 1 g) (seq 0 (length lhs))) by reflexivity. module_eq.
Qed.
Lemma collect_len g n lhs rhs resps (c : F) : length (collect_scalars g n lhs rhs resps c) = (n + length rhs)%nat.
Proof.
  unfold collect_scalars. rewrite app_length. destruct (rows_len lhs resps 0%nat g (repeat f0 n, repeat f0 (length rhs))) as [A B].
  cbn [fst snd] in A, B. rewrite !repeat_length in *. rewrite B. f_equal.
  destruct (rhs_pass c (repeat m0 n) (combine rhs (snd (rows_pass 0 lhs resps g (repeat f0 n, repeat f0 (length rhs)))))
    (fst (fst (rows_pass 0 lhs resps g (repeat f0 n, repeat f0 (length rhs)))))) as [X _]; [now rewrite repeat_length|].
  rewrite repeat_length in X. exact X.
Qed.
Lemma collect_value g lhs rhs resps c elems coms : length lhs = length rhs -> length rhs = length coms ->
  multi_exp (collect_scalars g (length elems) lhs rhs resps c) (elems ++ coms) = wsum g (defects elems resps c lhs rhs coms).
Proof.
  intros L1 L2. unfold collect_scalars. rewrite rows_alphas.
  destruct (rows_len lhs resps 0%nat g (repeat f0 (length elems), repeat f0 (length rhs))) as [A B]. cbn [fst snd] in A, B. rewrite repeat_length in A, B.
  destruct (rows_value lhs resps elems coms 0%nat g (repeat f0 (length elems), repeat f0 (length rhs))) as [V W]; cbn [fst snd]; [now rewrite repeat_length..|].
  cbn [fst snd] in V, W. rewrite me_zero in V, W.
  destruct (rhs_pass c elems (combine rhs (map g (seq 0 (length lhs)))) _ A) as [X Y].
  rewrite me_app by exact X. rewrite Y, V, W. rewrite (wsum_defects elems resps c lhs rhs coms g [] L1 L2). cbn [app length]. module_eq.
Qed.

(** ** The verifier *)
Definition sigma_chal (chal : oracle) (t : transcript) (elems : list G) (p : sigma_proof) : F :=
  chal (init_sigma_protocol elems t ++ map Com (s_coms p)).
Definition fits (lhs : list (list nat)) (rhs : list nat) (p : sigma_proof (F:=F) (G:=G)) : Prop :=
  length lhs = length rhs /\ length rhs = length (s_coms p).
Lemma scalars_eq chal t g elems lhs rhs p : fits lhs rhs p ->
  sigma_verify_scalars chal t g elems lhs rhs p =
  Ok (collect_scalars g (length elems) lhs rhs (s_resps p) (sigma_chal chal t elems p),
      init_sigma_protocol elems t ++ map Com (s_coms p) ++ [Drawn], skipr (length lhs) g).
Proof.
  intros [L1 L2]. unfold sigma_verify_scalars. rewrite L1, L2, !Nat.eqb_refl. cbn [negb get_challenge].
  rewrite <- app_assoc. reflexivity.
Qed.
Lemma verify_eq chal t g elems lhs rhs p : fits lhs rhs p ->
  sigma_verify chal t g elems lhs rhs p =
  if meqb (wsum g (defects elems (s_resps p) (sigma_chal chal t elems p) lhs rhs (s_coms p))) m0 then Ok tt else Err.
Proof.
  intros Hf. unfold sigma_verify. rewrite scalars_eq by exact Hf. cbn [bind fst]. destruct Hf as [L1 L2].
  rewrite collect_value by assumption. reflexivity.
Qed.
Lemma verify_misfit chal t g elems lhs rhs p : ~ fits lhs rhs p -> sigma_verify chal t g elems lhs rhs p = Panic.
Proof.
  intros Hf. unfold sigma_verify, sigma_verify_scalars. destruct (Nat.eqb_spec (length lhs) (length rhs)) as [a|a]; [|reflexivity].
  destruct (Nat.eqb_spec (length rhs) (length (s_coms p))) as [b|b]; [|reflexivity]. exfalso. apply Hf. split; assumption.
Qed.
Lemma meqb_ok (a b : G) : (if meqb a b then Ok tt else Err) = Ok tt <-> a = b.
Proof. destruct (meqb_spec a b) as [e|n]; split; intros X; auto; try discriminate. contradiction. Qed.

Lemma wsum_0 g l : Forall (fun a => a = m0) l -> wsum g l = m0.
Proof. intros X. revert g. induction X as [|a l E X IH]; intros g; cbn [wsum]; [reflexivity|]. rewrite IH, E, smul_0r. apply madd_0. Qed.
(** Two streams differing in the draw of one equation: that equation holds. *)
Lemma wsum_two g g' l j a : nth_error l j = Some a -> (forall i, i <> j -> g i = g' i) -> g j <> g' j ->
  wsum g l = m0 -> wsum g' l = m0 -> a = m0.
Proof.
  intros Hj E N W W'. 
  assert (X : forall (l : list G) g g' j a, nth_error l j = Some a -> (forall i, i <> j -> g i = g' i) -> wsum g l - wsum g' l = (g j - g' j)%F *: a).
  { clear. induction l as [|b l IH]; intros g g' [|j] a Hj E; try discriminate; cbn [wsum nth_error] in *.
    - injection Hj as <-. assert (Y : forall l, wsum (skipr 1 g) l = wsum (skipr 1 g') l).
      { assert (Z : forall (l : list G) h h', (forall i, h i = h' i) -> wsum h l = wsum h' l).
        { clear. induction l as [|c l IH]; intros h h' Z; cbn [wsum]; [reflexivity|]. rewrite Z. f_equal. apply IH. intros i. apply Z. }
        intros l'. apply Z. intros i. apply E. cbn. discriminate. }
      rewrite Y. module_eq.
    - rewrite (E 0%nat) by discriminate. specialize (IH (skipr 1 g) (skipr 1 g') j a Hj). change (skipr 1 g j) with (g (S j)) in IH. change (skipr 1 g' j) with (g' (S j)) in IH.
      rewrite <- IH; [module_eq|]. intros i Hi. apply E. cbn. lia. }
  specialize (X l g g' j a Hj E). rewrite W, W' in X. symmetry in X.
  replace (m0 - m0 : G) with (m0 : G) in X by (symmetry; apply msub_0; reflexivity).
  destruct (smul_eq_0 _ _ X) as [Z|Z]; [|exact Z]. exfalso. apply N. now apply (fsub_0 F).
Qed.
Lemma wsum_all l : (forall g, wsum g l = m0) -> Forall (fun a => a = m0) l.
Proof.
  intros X. apply Forall_forall. intros a Ha. apply In_nth_error in Ha. destruct Ha as [j Hj].
  apply (wsum_two (fun i => if Nat.eqb i j then f1 else f0) (fun _ => f0) l j a Hj); auto.
  - intros i Hi. destruct (Nat.eqb_spec i j); [contradiction|reflexivity].
  - rewrite Nat.eqb_refl. apply f1_neq_0.
Qed.

(** ** The prover *)
Lemma row_sum_acc (elems : list G) : forall ps acc, Forall (fun ib => fst ib < length elems)%nat ps ->
  fold_left (fun acc ib => bind acc (fun a => match nth_error elems (fst ib) with Some e => Ok (a + snd ib *: e) | None => Panic end)) ps (Ok acc)
  = Ok (acc + msum (map (fun ix => snd ix *: nth (fst ix) elems m0) ps)).
Proof.
  induction ps as [|p ps IH]; intros acc X; cbn [fold_left map].
  - f_equal. cbn. symmetry. apply madd_0_r.
  - inversion X as [|? ? X1 X2]; subst. cbn [bind]. rewrite (nth_error_nth' elems m0 X1). rewrite IH by exact X2. f_equal. rewrite msum_cons. module_eq.
Qed.
Lemma row_sum_ok (elems : list G) row sc : (forall i, In i row -> (i < length elems)%nat) -> row_sum elems row sc = Ok (lin elems row sc).
Proof.
  intros X. unfold row_sum, lin. rewrite row_sum_acc; [f_equal; apply madd_0|]. apply Forall_forall. intros [i b] Hi. apply in_combine_l in Hi. now apply X.
Qed.
Lemma commitments_ok (elems : list G) (bl : list F) : forall lhs t, well_formed elems lhs (length bl) ->
  proof_commitments t bl elems lhs = Ok (map (fun row => lin elems row bl) lhs, t ++ map Com (map (fun row => lin elems row bl) lhs)).
Proof.
  induction lhs as [|row lhs IH]; intros t W; cbn [proof_commitments map].
  - now rewrite app_nil_r.
  - destruct (W row (or_introl eq_refl)) as [L I]. rewrite L, Nat.eqb_refl. cbn [negb]. rewrite row_sum_ok by exact I. cbn [bind].
    rewrite IH by (intros r Hr; apply W; now right). cbn [bind fst snd]. rewrite <- app_assoc. reflexivity.
Qed.
Definition honest_coms (elems : list G) (lhs : list (list nat)) (n : nat) (g : rng) : list G :=
  map (fun row => lin elems row (map g (seq 0 n))) lhs.
Definition honest_resps (secrets : list F) (g : rng) (c : F) : list F :=
  map (fun sb => (fst sb * c + snd sb)%F) (combine secrets (map g (seq 0 (length secrets)))).
Lemma prove_eq chal t g elems lhs secrets : well_formed elems lhs (length secrets) ->
  let coms := honest_coms elems lhs (length secrets) g in
  let t1 := init_sigma_protocol elems t ++ map Com coms in
  sigma_prove chal t g elems lhs secrets =
  Ok (mkSigma coms (honest_resps secrets g (chal t1)), t1 ++ [Drawn], skipr (length secrets) g).
Proof.
  intros W coms t1. unfold sigma_prove, sample_blindings. rewrite commitments_ok by (now rewrite map_length, seq_length).
  cbn [bind fst snd get_challenge]. reflexivity.
Qed.
Lemma lin_resps (elems : list G) row : forall secrets bl (c : F), length secrets = length bl ->
  lin elems row (map (fun sb => (fst sb * c + snd sb)%F) (combine secrets bl)) = c *: lin elems row secrets + lin elems row bl.
Proof.
  unfold lin. revert row. intros row. induction row as [|i row IH]; intros [|s secrets] [|b bl] c L; try discriminate; cbn [combine map].
  - cbn. rewrite smul_0r. symmetry. apply madd_0.
  - cbn. rewrite smul_0r. symmetry. apply madd_0.
  - cbn. rewrite smul_0r. symmetry. apply madd_0.
  - rewrite !msum_cons, IH by (now injection L). cbn [fst snd]. module_eq.
Qed.
Lemma honest_defects (elems : list G) secrets g c : forall lhs rhs, solves elems lhs rhs secrets ->
  Forall (fun a => a = m0) (defects elems (honest_resps secrets g c) c lhs rhs (honest_coms elems lhs (length secrets) g)).
Proof.
  unfold honest_coms, honest_resps. induction lhs as [|row lhs IH]; intros [|r rhs] [L S]; try discriminate; cbn [defects map]; constructor.
  - unfold defect. rewrite lin_resps by (now rewrite map_length, seq_length). rewrite (S 0%nat row r eq_refl eq_refl). module_eq.
  - apply IH. split; [now injection L|]. intros j row' r' A B. now apply (S (Datatypes.S j)).
Qed.

(** ** Extraction *)
Definition extracted (n : nat) (z z' : list F) (c c' : F) : list F :=
  map (fun i => (nth i z f0 - nth i z' f0) / (c - c'))%F (seq 0 n).
Lemma lin_nth (elems : list G) : forall row (z : list F), lin elems row z = lin elems row (map (fun i => nth i z f0) (seq 0 (length row))).
Proof.
  unfold lin. induction row as [|i row IH]; intros z; [reflexivity|]. cbn [length seq map combine]. destruct z as [|x z].
  - cbn [combine map]. rewrite msum_cons. rewrite <- seq_shift, map_map. cbn [nth fst snd]. rewrite smul_0l, madd_0.
    rewrite <- (map_ext (fun i => nth i ([] : list F) f0) (fun _ => f0)); [|intros [|?]; reflexivity]. rewrite <- IH.
    destruct row; reflexivity.
  - cbn [combine map]. rewrite !msum_cons, IH, <- seq_shift, map_map. reflexivity.
Qed.
Lemma lin_extract (elems : list G) row n z z' (c c' : F) : length row = n -> c <> c' ->
  (c - c')%F *: lin elems row (extracted n z z' c c') = lin elems row z - lin elems row z'.
Proof.
  intros <- Hc. rewrite (lin_nth elems row z), (lin_nth elems row z'). unfold extracted, lin.
  generalize (seq 0 (length row)) as is. induction row as [|i row IH]; intros [|k is]; cbn [map combine].
  - cbn. rewrite smul_0r. symmetry. apply msub_0. reflexivity.
  - cbn. rewrite smul_0r. symmetry. apply msub_0. reflexivity.
  - cbn. rewrite smul_0r. symmetry. apply msub_0. reflexivity.
  - rewrite !msum_cons, smul_addr, IH. cbn [fst snd]. rewrite smul_smul.
    replace ((c - c') * ((nth k z f0 - nth k z' f0) / (c - c')))%F with (nth k z f0 - nth k z' f0)%F; [module_eq|].
    field. intros X. apply Hc. now apply (fsub_0 F).
Qed.
Lemma extract_solves (elems : list G) n z z' c c' : c <> c' -> forall lhs rhs coms, length lhs = length rhs -> length rhs = length coms ->
  (forall row, In row lhs -> length row = n) ->
  Forall (fun a => a = m0) (defects elems z c lhs rhs coms) -> Forall (fun a => a = m0) (defects elems z' c' lhs rhs coms) ->
  solves elems lhs rhs (extracted n z z' c c').
Proof.
  intros Hc. induction lhs as [|row lhs IH]; intros [|r rhs] [|com coms] L1 L2 W D D'; try discriminate; cbn [defects] in *.
  - split; [reflexivity|]. intros [|j] row r A; discriminate.
  - inversion D as [|? ? D1 D2]; subst. inversion D' as [|? ? D1' D2']; subst.
    destruct (IH rhs coms) as [_ S]; [now injection L1|now injection L2|intros x Hx; apply W; now right|assumption..|].
    split; [cbn; cbn in L1; lia|]. intros [|j] row' r' A B; [|now apply (S j)]. cbn in A, B. injection A as <-. injection B as <-.
    apply (smul_cancel (c - c')%F); [intros X; apply Hc; now apply (fsub_0 F)|].
    rewrite lin_extract by (auto; apply W; now left). unfold defect in D1, D1'. apply (proj1 (msub_0 _ _)) in D1. apply (proj1 (msub_0 _ _)) in D1'.
    transitivity ((lin elems row z - c *: nth r elems m0) - (lin elems row z' - c' *: nth r elems m0) + (c - c')%F *: nth r elems m0); [module_eq|].
    rewrite D1, D1'. module_eq.
Qed.
End Sums.
