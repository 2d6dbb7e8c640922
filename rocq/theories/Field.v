(** Fields and vector spaces as explicit records.  The cryptographic models are
    stated over an arbitrary [Field] (a scalar field of zei_algebra) and an
    arbitrary [Mod] over it (a prime-order group of zei_algebra, written
    additively as in the trait Group, algebra/src/traits.rs). *)
From Coq Require Import List ZArith Lia Field Ring InitialRing Setoid.
Import ListNotations.

Record Field := mkField {
  car :> Type;
  f0 : car; f1 : car;
  fadd : car -> car -> car;
  fmul : car -> car -> car;
  fsub : car -> car -> car;
  fopp : car -> car;
  fdiv : car -> car -> car;
  finv : car -> car;
  f_th : field_theory f0 f1 fadd fmul fsub fopp fdiv finv (@eq car);
  f_dec : forall x y : car, {x = y} + {x <> y};
}.
Arguments f0 {_}. Arguments f1 {_}.
Arguments fadd {_} _ _. Arguments fmul {_} _ _. Arguments fsub {_} _ _.
Arguments fopp {_} _. Arguments fdiv {_} _ _. Arguments finv {_} _.
Arguments f_dec {_} _ _.

Declare Scope F_scope.
Delimit Scope F_scope with F.
Bind Scope F_scope with car.
Notation "0" := f0 : F_scope.
Notation "1" := f1 : F_scope.
Infix "+" := fadd : F_scope.
Infix "*" := fmul : F_scope.
Infix "-" := fsub : F_scope.
Notation "- x" := (fopp x) : F_scope.
Infix "/" := fdiv : F_scope.
Local Open Scope F_scope.

Definition feqb {F : Field} (x y : F) : bool := if f_dec x y then true else false.
Lemma feqb_spec {F : Field} (x y : F) : Bool.reflect (x = y) (feqb x y).
Proof. unfold feqb. destruct (f_dec x y); constructor; assumption. Qed.

(** Integers and naturals in a field. *)
Definition fofZ {F : Field} (z : Z) : F := gen_phiZ f0 f1 fadd fmul fopp z.
Definition fofN {F : Field} (n : N) : F := fofZ (Z.of_N n).

(** Powers and sums. *)
Fixpoint fpow {F : Field} (x : F) (n : nat) : F :=
  match n with O => 1 | S n' => x * fpow x n' end.
Definition fsum {F : Field} (l : list F) : F := fold_right fadd 0 l.
Definition fprod {F : Field} (l : list F) : F := fold_right fmul 1 l.

(** The field has no relation of the integers below [b]: its characteristic is
    zero or at least [b]. *)
Definition char_ge (F : Field) (b : Z) : Prop :=
  forall z, (0 < z < b)%Z -> fofZ (F := F) z <> 0.

Section Facts.
Context (F : Field).
Add Field Ff : (f_th F).

Lemma f_rth : ring_theory (f0 : F) f1 fadd fmul fsub fopp eq.
Proof. exact (F_R (f_th F)). Qed.

Lemma f1_neq_0 : (1 : F) <> 0.
Proof. exact (F_1_neq_0 (f_th F)). Qed.

Lemma fofZ_morph : ring_morph (f0 : F) f1 fadd fmul fsub fopp eq
  0%Z 1%Z Z.add Z.mul Z.sub Z.opp Zeq_bool (fofZ (F := F)).
Proof.
  unfold fofZ. apply gen_phiZ_morph.
  - apply Eqsth.
  - apply Eq_ext.
  - exact f_rth.
Qed.

Lemma fofZ_0 : fofZ 0 = (0 : F). Proof. reflexivity. Qed.
Lemma fofZ_1 : fofZ 1 = (1 : F). Proof. reflexivity. Qed.
Lemma fofZ_add x y : fofZ (x + y) = (fofZ x + fofZ y : F).
Proof. exact (morph_add fofZ_morph x y). Qed.
Lemma fofZ_sub x y : fofZ (x - y) = (fofZ x - fofZ y : F).
Proof. exact (morph_sub fofZ_morph x y). Qed.
Lemma fofZ_mul x y : fofZ (x * y) = (fofZ x * fofZ y : F).
Proof. exact (morph_mul fofZ_morph x y). Qed.
Lemma fofZ_opp x : fofZ (- x) = (- fofZ x : F).
Proof. exact (morph_opp fofZ_morph x). Qed.

Lemma fmul_0 (x y : F) : x * y = 0 -> x = 0 \/ y = 0.
Proof.
  intros H. destruct (f_dec x 0) as [E|E]; [left; exact E|right].
  transitivity (finv x * (x * y)); [field; exact E|]. rewrite H. ring.
Qed.

Lemma fmul_neq_0 (x y : F) : x <> 0 -> y <> 0 -> x * y <> 0.
Proof. intros Hx Hy H. destruct (fmul_0 _ _ H); contradiction. Qed.

Lemma fsub_0 (x y : F) : x - y = 0 <-> x = y.
Proof.
  split; intros H.
  - transitivity (x - y + y); [ring|]. rewrite H. ring.
  - rewrite H. ring.
Qed.

Lemma fmul_cancel (x y z : F) : x <> 0 -> x * y = x * z -> y = z.
Proof.
  intros Hx H. apply fsub_0. destruct (fmul_0 x (y - z)) as [E|E].
  - transitivity (x * y - x * z); [ring|]. rewrite H. ring.
  - contradiction.
  - exact E.
Qed.

Lemma fsquare_0 (x : F) : x * x = 0 -> x = 0.
Proof. intros H. destruct (fmul_0 _ _ H); assumption. Qed.

Lemma fofZ_inj b x y : char_ge F b -> (Z.abs (x - y) < b)%Z -> fofZ x = (fofZ y : F) -> x = y.
Proof.
  intros Hc Hb He. destruct (Z.eq_dec x y) as [|Hn]; [assumption|exfalso].
  assert (E : fofZ (x - y) = (0 : F)) by (rewrite fofZ_sub, He; ring).
  destruct (Z.lt_ge_cases 0 (x - y)) as [Hp|Hp].
  - apply (Hc (x - y)%Z); [lia|exact E].
  - apply (Hc (- (x - y))%Z); [lia|]. rewrite fofZ_opp, E. ring.
Qed.

Lemma fofZ_nonzero b x : char_ge F b -> (Z.abs x < b)%Z -> x <> 0%Z -> fofZ x <> (0 : F).
Proof. intros Hc Hb Hn E. apply Hn. apply (fofZ_inj b); [exact Hc|lia|exact E]. Qed.

Lemma char_ge_weaken a b : (a <= b)%Z -> char_ge F b -> char_ge F a.
Proof. intros Hab Hc z Hz. apply Hc. lia. Qed.

Lemma fpow_S (x : F) n : fpow x (S n) = x * fpow x n. Proof. reflexivity. Qed.
Lemma fpow_add (x : F) n m : fpow x (n + m) = fpow x n * fpow x m.
Proof. induction n as [|n IH]; cbn [Nat.add fpow]; [ring|]. rewrite IH. ring. Qed.
Lemma fpow_mul (x : F) n m : fpow x (n * m) = fpow (fpow x n) m.
Proof.
  induction m as [|m IH]; cbn [fpow]; [rewrite Nat.mul_0_r; reflexivity|].
  rewrite Nat.mul_succ_r, Nat.add_comm, fpow_add, IH. reflexivity.
Qed.
Lemma fpow_1_l n : fpow (1 : F) n = 1.
Proof. induction n as [|n IH]; cbn [fpow]; [reflexivity|]. rewrite IH. ring. Qed.
Lemma fpow_mul_l (x y : F) n : fpow (x * y) n = fpow x n * fpow y n.
Proof. induction n as [|n IH]; cbn [fpow]; [ring|]. rewrite IH. ring. Qed.
Lemma fpow_neq_0 (x : F) n : x <> 0 -> fpow x n <> 0.
Proof. intros Hx. induction n as [|n IH]; cbn [fpow]; [apply f1_neq_0|]. apply fmul_neq_0; assumption. Qed.

Lemma fsum_cons (x : F) l : fsum (x :: l) = x + fsum l. Proof. reflexivity. Qed.
Lemma fsum_app (l m : list F) : fsum (l ++ m) = fsum l + fsum m.
Proof. induction l as [|x l IH]; cbn [app]; [cbn; ring|]. rewrite !fsum_cons, IH. ring. Qed.
Lemma fprod_cons (x : F) l : fprod (x :: l) = x * fprod l. Proof. reflexivity. Qed.
Lemma fprod_app (l m : list F) : fprod (l ++ m) = fprod l * fprod m.
Proof. induction l as [|x l IH]; cbn [app]; [cbn; ring|]. rewrite !fprod_cons, IH. ring. Qed.
Lemma fprod_0 (l : list F) : fprod l = 0 <-> In 0 l.
Proof.
  induction l as [|x l IH].
  - cbn. split; [intros H; exfalso; exact (f1_neq_0 H)|intros []].
  - rewrite fprod_cons. cbn [In]. rewrite <- IH. split.
    + apply fmul_0.
    + intros [->|H]; [ring|]. rewrite H. ring.
Qed.
Lemma fsum_fofZ (l : list Z) : fsum (map (fofZ (F := F)) l) = fofZ (fold_right Z.add 0%Z l).
Proof.
  induction l as [|x l IH]; cbn [map fold_right]; [reflexivity|].
  rewrite fsum_cons, IH, fofZ_add. reflexivity.
Qed.
End Facts.

(** ** Groups with scalar multiplication: modules over a field *)
Record Mod (F : Field) := mkMod {
  mcar :> Type;
  m0 : mcar;
  madd : mcar -> mcar -> mcar;
  mopp : mcar -> mcar;
  smul : F -> mcar -> mcar;
  madd_assoc : forall a b c, madd a (madd b c) = madd (madd a b) c;
  madd_comm : forall a b, madd a b = madd b a;
  madd_0 : forall a, madd m0 a = a;
  madd_opp : forall a, madd a (mopp a) = m0;
  smul_1 : forall a, smul f1 a = a;
  smul_smul : forall x y a, smul x (smul y a) = smul (fmul x y) a;
  smul_addl : forall x y a, smul (fadd x y) a = madd (smul x a) (smul y a);
  smul_addr : forall x a b, smul x (madd a b) = madd (smul x a) (smul x b);
  m_dec : forall a b : mcar, {a = b} + {a <> b};
}.
Arguments m0 {_ _}. Arguments madd {_ _} _ _. Arguments mopp {_ _} _. Arguments smul {_ _} _ _.
Arguments m_dec {_ _} _ _.
Definition msub {F} {M : Mod F} (a b : M) : M := madd a (mopp b).
Definition meqb {F} {M : Mod F} (a b : M) : bool := if m_dec a b then true else false.
Lemma meqb_spec {F} {M : Mod F} (a b : M) : Bool.reflect (a = b) (meqb a b).
Proof. unfold meqb. destruct (m_dec a b); constructor; assumption. Qed.

Declare Scope M_scope.
Delimit Scope M_scope with M.
Bind Scope M_scope with mcar.
Infix "+" := madd : M_scope.
Infix "-" := msub : M_scope.
Notation "- x" := (mopp x) : M_scope.
Infix "*:" := smul (at level 40, left associativity) : M_scope.

Definition msum {F} {M : Mod F} (l : list M) : M := fold_right madd m0 l.

Section MFacts.
Context {F : Field} {M : Mod F}.
Add Field Fm : (f_th F).
Local Open Scope M_scope.

Lemma madd_0_r (a : M) : a + m0 = a.
Proof. rewrite madd_comm. apply madd_0. Qed.
Lemma madd_cancel (a b c : M) : a + b = a + c -> b = c.
Proof.
  intros H. rewrite <- (madd_0 _ _ b), <- (madd_0 _ _ c), <- (madd_opp _ _ a), (madd_comm _ _ a (- a)).
  rewrite <- !madd_assoc, H. reflexivity.
Qed.
Lemma smul_0l (a : M) : f0 *: a = m0.
Proof.
  apply (madd_cancel (f0 *: a)). rewrite <- smul_addl, madd_0_r. f_equal. ring.
Qed.
Lemma smul_0r (x : F) : x *: (m0 : M) = m0.
Proof.
  apply (madd_cancel (x *: m0)). rewrite <- smul_addr, madd_0_r, madd_0_r. reflexivity.
Qed.
Lemma mopp_smul (a : M) : - a = fopp f1 *: a.
Proof.
  apply (madd_cancel a). rewrite madd_opp.
  rewrite <- (smul_1 _ _ a) at 1. rewrite <- smul_addl.
  replace (fadd f1 (fopp f1) : F) with (f0 : F) by ring. symmetry. apply smul_0l.
Qed.
Lemma smul_oppr (x : F) (a : M) : x *: (- a) = fopp x *: a.
Proof. rewrite mopp_smul, smul_smul. f_equal. ring. Qed.
Lemma msub_0 (a b : M) : a - b = m0 <-> a = b.
Proof.
  unfold msub. split; intros H.
  - apply (madd_cancel (- b)). rewrite (madd_comm _ _ _ a), H, (madd_comm _ _ _ b), madd_opp. reflexivity.
  - rewrite H. apply madd_opp.
Qed.
Lemma smul_eq_0 (x : F) (a : M) : x *: a = m0 -> x = f0 \/ a = m0.
Proof.
  intros H. destruct (f_dec x f0) as [E|E]; [left; exact E|right].
  rewrite <- (smul_1 _ _ a). replace (f1 : F) with (fmul (finv x) x) by (field; exact E).
  rewrite <- smul_smul, H. apply smul_0r.
Qed.
Lemma smul_cancel (x : F) (a b : M) : x <> f0 -> x *: a = x *: b -> a = b.
Proof.
  intros Hx H. rewrite <- (smul_1 _ _ a), <- (smul_1 _ _ b).
  replace (f1 : F) with (fmul (finv x) x) by (field; exact Hx).
  rewrite <- !smul_smul, H. reflexivity.
Qed.

(** ** A reflective normaliser for linear combinations *)
Inductive mexp :=
| MZero | MAtom (n : nat) | MAdd (a b : mexp) | MSub (a b : mexp) | MOpp (a : mexp) | MScal (c : F) (a : mexp).

Fixpoint mden (env : list M) (e : mexp) : M :=
  match e with
  | MZero => m0
  | MAtom n => nth n env m0
  | MAdd a b => mden env a + mden env b
  | MSub a b => mden env a - mden env b
  | MOpp a => - mden env a
  | MScal c a => c *: mden env a
  end.

(** Coefficient of atom [n]. *)
Fixpoint mcoef (n : nat) (e : mexp) : F :=
  match e with
  | MZero => f0
  | MAtom k => if Nat.eqb k n then f1 else f0
  | MAdd a b => fadd (mcoef n a) (mcoef n b)
  | MSub a b => fsub (mcoef n a) (mcoef n b)
  | MOpp a => fopp (mcoef n a)
  | MScal c a => fmul c (mcoef n a)
  end.

Fixpoint mlin (k : nat) (env : list M) (coef : nat -> F) : M :=
  match env with [] => m0 | a :: env' => coef k *: a + mlin (S k) env' coef end.

Lemma mlin_ext k env c c' : (forall n, (k <= n < k + length env)%nat -> c n = c' n) ->
  mlin k env c = mlin k env c'.
Proof.
  revert k; induction env as [|a env IH]; intros k H; cbn [mlin]; [reflexivity|].
  cbn [length] in H. rewrite (H k) by lia. f_equal. apply IH. intros n Hn. apply H. lia.
Qed.
Lemma mlin_0 k env : mlin k env (fun _ => f0) = m0.
Proof. revert k; induction env as [|a env IH]; intros k; cbn [mlin]; [reflexivity|].
  rewrite smul_0l, IH. apply madd_0. Qed.
Lemma madd_swap (a b c d : M) : (a + b) + (c + d) = (a + c) + (b + d).
Proof. rewrite <- !madd_assoc. f_equal. rewrite !madd_assoc. f_equal. apply madd_comm. Qed.
Lemma mlin_add k env c c' : mlin k env (fun n => fadd (c n) (c' n)) = mlin k env c + mlin k env c'.
Proof. revert k; induction env as [|a env IH]; intros k; cbn [mlin]; [symmetry; apply madd_0|].
  rewrite IH, smul_addl. apply madd_swap. Qed.
Lemma mlin_scal k env x c : mlin k env (fun n => fmul x (c n)) = x *: mlin k env c.
Proof. revert k; induction env as [|a env IH]; intros k; cbn [mlin]; [symmetry; apply smul_0r|].
  rewrite IH, smul_addr, smul_smul. reflexivity. Qed.
Lemma mlin_atom env : forall k n, (k <= n)%nat ->
  mlin k env (fun m => if Nat.eqb n m then f1 else f0) = nth (n - k) env m0.
Proof.
  induction env as [|a env IH]; intros k n Hn; cbn [mlin].
  - destruct (n - k)%nat; reflexivity.
  - destruct (Nat.eqb_spec n k) as [->|Hne].
    + rewrite Nat.sub_diag. cbn [nth]. rewrite smul_1.
      rewrite (mlin_ext _ _ _ (fun _ => f0)), mlin_0, madd_0_r; [reflexivity|].
      intros m Hm. destruct (Nat.eqb_spec k m); [lia|reflexivity].
    + rewrite smul_0l, madd_0, IH by lia. replace (n - k)%nat with (S (n - S k)) by lia. reflexivity.
Qed.

Lemma mden_lin env e : mden env e = mlin 0 env (fun n => mcoef n e).
Proof.
  induction e as [|k|a IHa b IHb|a IHa b IHb|a IHa|c a IHa]; cbn [mden mcoef].
  - symmetry. apply mlin_0.
  - rewrite mlin_atom by lia. rewrite Nat.sub_0_r. reflexivity.
  - rewrite mlin_add, IHa, IHb. reflexivity.
  - unfold msub. rewrite IHa, IHb, mopp_smul, <- mlin_scal, <- mlin_add.
    apply mlin_ext. intros n _. ring.
  - rewrite IHa, mopp_smul, <- mlin_scal. apply mlin_ext. intros n _. ring.
  - rewrite mlin_scal, IHa. reflexivity.
Qed.

Fixpoint mcoefs_eq (k : nat) (fuel : nat) (a b : mexp) : Prop :=
  match fuel with
  | O => True
  | S f => mcoef k a = mcoef k b /\ mcoefs_eq (S k) f a b
  end.

Lemma mcoefs_eq_sound a b : forall fuel k, mcoefs_eq k fuel a b ->
  forall n, (k <= n < k + fuel)%nat -> mcoef n a = mcoef n b.
Proof.
  induction fuel as [|f IH]; intros k H n Hn; [lia|]. destruct H as [H0 H1].
  destruct (Nat.eq_dec n k) as [->|Hne]; [exact H0|]. apply (IH (S k) H1). lia.
Qed.

Lemma mod_reflect env a b : mcoefs_eq 0 (length env) a b -> mden env a = mden env b.
Proof.
  intros H. rewrite !mden_lin. apply mlin_ext. intros n Hn.
  apply (mcoefs_eq_sound a b _ _ H). lia.
Qed.
End MFacts.

(** Reification. *)
Ltac mod_in a env :=
  lazymatch env with
  | nil => constr:(false)
  | cons a _ => constr:(true)
  | cons _ ?env' => mod_in a env'
  end.
Ltac mod_add a env :=
  let b := mod_in a env in
  lazymatch b with true => env | false => constr:(cons a env) end.
Ltac mod_atoms e env :=
  lazymatch e with
  | @m0 _ _ => env
  | @madd _ _ ?a ?b => let env1 := mod_atoms a env in mod_atoms b env1
  | @msub _ _ ?a ?b => let env1 := mod_atoms a env in mod_atoms b env1
  | @mopp _ _ ?a => mod_atoms a env
  | @smul _ _ _ ?a => mod_atoms a env
  | ?a => mod_add a env
  end.
Ltac mod_idx a env :=
  lazymatch env with
  | cons a _ => constr:(O)
  | cons _ ?env' => let n := mod_idx a env' in constr:(S n)
  end.
Ltac mod_reify F e env :=
  lazymatch e with
  | @m0 _ _ => constr:(@MZero F)
  | @madd _ _ ?a ?b => let x := mod_reify F a env in let y := mod_reify F b env in constr:(@MAdd F x y)
  | @msub _ _ ?a ?b => let x := mod_reify F a env in let y := mod_reify F b env in constr:(@MSub F x y)
  | @mopp _ _ ?a => let x := mod_reify F a env in constr:(@MOpp F x)
  | @smul _ _ ?c ?a => let x := mod_reify F a env in constr:(@MScal F c x)
  | ?a => let n := mod_idx a env in constr:(@MAtom F n)
  end.
(** [module_eq]: reduce an equation of group elements to equations between the
    coefficients of the atoms, then try [ring] on each of them. *)
Ltac module_prep :=
  lazymatch goal with
  | |- @eq ?T ?lhs ?rhs =>
    let M := lazymatch T with mcar _ ?M => M end in
    let F := lazymatch T with mcar ?F _ => F end in
    let env0 := constr:(@nil (mcar F M)) in
    let env1 := mod_atoms lhs env0 in
    let env := mod_atoms rhs env1 in
    let l := mod_reify F lhs env in
    let r := mod_reify F rhs env in
    change (@mden F M env l = @mden F M env r);
    apply (@mod_reflect F M env l r);
    cbn [mcoefs_eq mcoef length Nat.eqb]
  end.
Ltac module_eq := module_prep; repeat split; ring.

(** ** A field seen as a module over itself (used for concrete witnesses). *)
Section Self.
Context (F : Field).
Add Field Fs : (f_th F).
Lemma self_assoc (a b c : F) : fadd a (fadd b c) = fadd (fadd a b) c. Proof. ring. Qed.
Lemma self_comm (a b : F) : fadd a b = fadd b a. Proof. ring. Qed.
Lemma self_0 (a : F) : fadd f0 a = a. Proof. ring. Qed.
Lemma self_opp (a : F) : fadd a (fopp a) = f0. Proof. ring. Qed.
Lemma self_1 (a : F) : fmul f1 a = a. Proof. ring. Qed.
Lemma self_smul (x y a : F) : fmul x (fmul y a) = fmul (fmul x y) a. Proof. ring. Qed.
Lemma self_addl (x y a : F) : fmul (fadd x y) a = fadd (fmul x a) (fmul y a). Proof. ring. Qed.
Lemma self_addr (x a b : F) : fmul x (fadd a b) = fadd (fmul x a) (fmul x b). Proof. ring. Qed.
Definition self_mod : Mod F :=
  {| mcar := F; m0 := f0; madd := fadd; mopp := fopp; smul := fmul;
     madd_assoc := self_assoc; madd_comm := self_comm; madd_0 := self_0; madd_opp := self_opp;
     smul_1 := self_1; smul_smul := self_smul; smul_addl := self_addl; smul_addr := self_addr;
     m_dec := f_dec |}.
End Self.

Section Test.
Context (F : Field) (M : Mod F).
Add Field Ft : (f_th F).
Local Open Scope M_scope.
Example module_eq_test (a b : M) (x y : F) :
  x *: (a + b) - y *: a = (fsub x y) *: a + x *: b.
Proof. module_eq. Qed.
End Test.
