(** Model of the Rescue permutation, crypto/src/basic/rescue.rs, and of its
    gadget, plonk/src/plonk/constraint_system/rescue.rs. *)
From Coq Require Import List ZArith NArith Bool.
From Verif Require Import Base Field PField Power TurboModel.
Import ListNotations.

Section Rescue.
Context (F : PField).
Local Open Scope F_scope.

(** crypto rescue.rs 38-57 [RescueInstance]; [state_size] is rate + capacity
    (71-73), [ainv] the number whose limbs are [alpha_inv]. *)
Record rescue_instance := mkRescue {
  MDS : list (list F); IC : list F; Cadd : list F; Kmat : list (list F);
  state_size : nat; alpha : N; ainv : N; num_rounds : nat }.

(** crypto rescue.rs 163-174 [linear_op]: r := M r + c.  The loops zip, so extra
    entries of the longer side are left alone. *)
Definition row_op (m v : list F) (acc : F) : F :=
  fold_left (fun a mv => a + fst mv * snd mv) (combine m v) acc.
Fixpoint aux_vec (M : list (list F)) (v c : list F) : list F :=
  match M, c with
  | m :: M', a :: c' => row_op m v a :: aux_vec M' v c'
  | _, _ => c
  end.
Fixpoint overwrite (old new : list F) : list F :=
  match old, new with
  | _ :: o, n :: n' => n :: overwrite o n'
  | _, _ => old
  end.
Definition linear_op (M : list (list F)) (v c : list F) : list F := overwrite v (aux_vec M v c).

(** crypto rescue.rs 176-180 [pow_vector]. *)
Definition pow_vector (v : list F) (e : N) : list F := map (fun x => fpowN x e) v.

(** The zip-and-add of crypto rescue.rs 87-91 and 123-127. *)
Definition add_vectors (a b : list F) : list F := map (fun p => fst p + snd p) (combine a b).

Section Instance.
Context (P : rescue_instance).

(** The exponent of half-round [i]: crypto rescue.rs 93-97 and 149-155. *)
Definition round_exp (i : nat) : N := if Nat.even i then ainv P else alpha P.

(** crypto rescue.rs 85-111 [key_scheduling]. *)
Fixpoint key_loop (n i : nat) (ki prev : list F) : list (list F) :=
  match n with
  | O => []
  | S n' =>
      let pw := pow_vector prev (round_exp i) in
      let ki' := linear_op (Kmat P) ki (Cadd P) in
      let k := linear_op (MDS P) pw ki' in
      k :: key_loop n' (S i) ki' k
  end.
Definition key_scheduling (key : list F) : list (list F) :=
  let k0 := add_vectors key (IC P) in
  k0 :: key_loop (2 * num_rounds P) 0 (IC P) k0.

(** crypto rescue.rs 142-160 [rescue_round]: state, key state, key injection. *)
Definition rescue_round (i : nat) (st : list F * list F * list F) : list F * list F * list F :=
  let '(s, ks, ki) := st in
  let ks1 := pow_vector ks (round_exp i) in
  let s1 := pow_vector s (round_exp i) in
  let ki' := linear_op (Kmat P) ki (Cadd P) in
  let ks' := linear_op (MDS P) ks1 ki' in
  (linear_op (MDS P) s1 ks', ks', ki').
Fixpoint round_loop (n i : nat) (st : list F * list F * list F) : list F * list F * list F :=
  match n with O => st | S n' => round_loop n' (S i) (rescue_round i st) end.

(** crypto rescue.rs 114-139 [rescue]; the padding (76-82) is the identity after
    the assertion. *)
Definition rescue (input : list F) : res (list F) :=
  if Nat.eqb (length input) (state_size P) then
    let s := add_vectors input (IC P) in
    Ok (fst (fst (round_loop (2 * num_rounds P) 0 (s, IC P, IC P))))
  else Panic.

(** ** The gadget (plonk rescue.rs).  The assertions on lengths (WIDTH = 4) hold
    for the instance used; states are lists of variables. *)
(** rescue.rs 141-160 [add_constant]. *)
Definition addc_row (v : nat) (k : F) (o : nat) : gate F :=
  mkGate 1 0 0 0 0 0 k 0 0 0 0 0 1 v 0%nat 0%nat 0%nat o false None.
Definition add_constant (v : nat) (k : F) : CS F nat := fun s =>
  bnd (new_variable F (val s v + k)) (fun o =>
  bnd (push_gate F (addc_row v k o)) (fun _ => ret o)) s.

(** rescue.rs 163-193 [add_linear_op_constraint]. *)
Definition wire4 (vs : list nat) (i : nat) : nat := nth i vs 0%nat.
Definition lin_row (vs : list nat) (m : list F) (k : F) (o : nat) : gate F :=
  mkGate (nth 0 m 0) (nth 1 m 0) (nth 2 m 0) (nth 3 m 0) 0 0 k 0 0 0 0 0 1
         (wire4 vs 0) (wire4 vs 1) (wire4 vs 2) (wire4 vs 3) o false None.
Definition add_linear_op_constraint (vs : list nat) (m : list F) (k : F) : CS F nat := fun s =>
  bnd (new_variable F (fold_left (fun a i => a + nth i m 0 * val s (wire4 vs i)) (seq 0 4) k)) (fun o =>
  bnd (push_gate F (lin_row vs m k o)) (fun _ => ret o)) s.

(** rescue.rs 196-226 [add_non_linear_op_constraint]. *)
Definition nonlin_row (vs : list nat) (m : list F) (k : F) (o : nat) : gate F :=
  mkGate 0 0 0 0 0 0 k 0 (nth 0 m 0) (nth 1 m 0) (nth 2 m 0) (nth 3 m 0) 1
         (wire4 vs 0) (wire4 vs 1) (wire4 vs 2) (wire4 vs 3) o false None.
Definition add_non_linear_op_constraint (vs : list nat) (m : list F) (k : F) : CS F nat := fun s =>
  bnd (new_variable F (fold_left (fun a i => a + nth i m 0 * fpowN (val s (wire4 vs i)) 5) (seq 0 4) k)) (fun o =>
  bnd (push_gate F (nonlin_row vs m k o)) (fun _ => ret o)) s.

(** rescue.rs 229-250 [add_pow_5_inv_constraint]; [e] is the number whose bytes are the
    file's own constant ALPHA_INV (lines 13-16). *)
Definition pow5inv_row (v o : nat) : gate F :=
  mkGate 0 0 0 0 0 0 0 0 0 0 0 1 1 0%nat 0%nat 0%nat o v false None.
Definition add_pow_5_inv_constraint (e : N) (v : nat) : CS F nat := fun s =>
  bnd (new_variable F (fpowN (val s v) e)) (fun o =>
  bnd (push_gate F (pow5inv_row v o)) (fun _ => ret o)) s.

Fixpoint mapM {A B} (f : A -> CS F B) (l : list A) : CS F (list B) :=
  match l with
  | [] => ret []
  | a :: l' => bnd (f a) (fun b => bnd (mapM f l') (fun r => ret (b :: r)))
  end.

(** rescue.rs 100-108 [add_constant_state], 111-118 [linear_op], 121-128 [non_linear_op],
    131-138 [pow_5_inv]. *)
Definition add_constant_state (vs : list nat) (k : list F) : CS F (list nat) :=
  mapM (fun p => add_constant (fst p) (snd p)) (combine vs k).
Definition linear_op_cs (vs : list nat) (key : list F) : CS F (list nat) :=
  mapM (fun i => add_linear_op_constraint vs (nth i (MDS P) []) (nth i key 0)) (seq 0 4).
Definition non_linear_op_cs (vs : list nat) (key : list F) : CS F (list nat) :=
  mapM (fun i => add_non_linear_op_constraint vs (nth i (MDS P) []) (nth i key 0)) (seq 0 4).
Definition pow_5_inv (e : N) (vs : list nat) : CS F (list nat) := mapM (add_pow_5_inv_constraint e) vs.

(** rescue.rs 76-97 [rescue_hash]. *)
Fixpoint hash_loop (e : N) (keys : list (list F)) (r : nat) (vs : list nat) : CS F (list nat) :=
  match keys with
  | [] => ret vs
  | key :: keys' =>
      bnd (if Nat.even r then bnd (pow_5_inv e vs) (fun vs' => linear_op_cs vs' key)
           else non_linear_op_cs vs key) (fun vs' => hash_loop e keys' (S r) vs')
  end.
Definition rescue_hash (e : N) (vs : list nat) : CS F (list nat) :=
  let keys := key_scheduling [0; 0; 0; 0] in
  bnd (add_constant_state vs (hd [] keys)) (fun vs' => hash_loop e (tl keys) 0 vs').
End Instance.
End Rescue.

(** crypto/src/basic/rescue.rs 186-205: M00..M33. *)
Definition bls_MDS : list (list Z) :=
  [[52435875175126190479447740508185965837690552500527637822603658699938581066864; 52435875175126190479447740508185965837690552500527637822603658699938534124913; 52435875175126190479447740508185965837690552500527637822603658699922104442063; 52435875175126190479447740508185965837690552500527637822603658694270581781713];
   [137200; 54762351; 19167800400; 6593435097550];
   [52435875175126190479447740508185965837690552500527637822603658699938581164563; 52435875175126190479447740508185965837690552500527637822603658699938573341713; 52435875175126190479447740508185965837690552500527637822603658699935841949364; 52435875175126190479447740508185965837690552500527637822603658698996613844913];
   [400; 140050; 48177200; 16531644851]]%Z.

(** crypto rescue.rs 208-226: K00..K33. *)
Definition bls_K : list (list Z) :=
  [[20508694040621567351648110034447675442497630601368754313856884903339587777311; 21833126749675005420257511508741654628498211767962591705355382899857469438170; 10094259962876866855921243786568400951965635335279511958062644189442373357290; 19703017446530302026954081842172601421653728134317178448940156258115853425803];
   [10251498144790729877114984073212046753223574188577263253763854582885300616634; 23799697215770479455315980501436150478606639549341703710964277906023879274693; 3007859742890615231402252990001597094047140204544326329227026628202747223471; 28206680002640467010077105488518988050496606663258696654543362871739559141116];
   [3001386190657217866716811031197002190094834176598601007437349105366277408753; 3302832234223427084389235892793462946069958738751625733789554798277785616852; 33828191304584863092326289783666465913001308709873493077072772336792329272781; 39527082973012175895755035046102602497048600747962062191946750704586900696815];
   [28051483866417948291356906371063959987011977735069581088198413305545643762525; 940230548799789892304826428424685764994822279495712794369041189518965610982; 51086698257646416011541091115454938869982232807222651212625724712549497545484; 17476372527237931823914329908105757745889986759257828348803723712031461055028]]%Z.

(** crypto rescue.rs 229-238: IC0..IC3, C0..C3. *)
Definition bls_IC : list Z := [23134431890904997735913685390433273947519177060544011867815065124418348995661; 7910743581020883359489900822814213105822551758045258908574127548576902234202; 6452335108146897903818881932868089947456740590166061243393158685187431809297; 864592593827916191968939823230510547087468030011538620003456937932684270153]%Z.
Definition bls_C : list Z := [47547237971610965741643776816276041546468880714675495834455049663798422970459; 10004118136888058764408398782965078987905732598601545000387602435395348015578; 41751554506863950612723183999266149980852802057217063263129581065630539355943; 28630474321717538333837377020183699597240697917209889448356171144508785456174]%Z.

(** crypto rescue.rs 242-247 (limbs of ALPHA_INV, least significant first) and plonk
    rescue.rs 13-16 (its bytes), as numbers. *)
Definition of_limbs (b : N) (l : list N) : N := fold_right (fun x acc => (x + b * acc)%N) 0%N l.
Definition bls_alpha_inv : N :=
  of_limbs (2 ^ 64) [0x33333332CCCCCCCD; 0x217F0E679998F199; 0xE14A56699D73F002; 0x2E5F0FBADD72321C]%N.
Definition gadget_alpha_inv : N :=
  of_limbs 256
    [0xCD; 0xCC; 0xCC; 0xCC; 0x32; 0x33; 0x33; 0x33; 0x99; 0xF1; 0x98; 0x99; 0x67; 0x0E; 0x7F; 0x21;
     0x02; 0xF0; 0x73; 0x9D; 0x69; 0x56; 0x4A; 0xE1; 0x1C; 0x32; 0x72; 0xDD; 0xBA; 0x0F; 0x5F; 0x2E]%N.

(** crypto rescue.rs 258-332 [RescueInstance::<BLSScalar>::new]; 184 NR = 12,
    248 ALPHA = 5. *)
Definition bls_rescue : rescue_instance BLS :=
  mkRescue BLS (map (map (fofZ (F := BLS))) bls_MDS) (map (fofZ (F := BLS)) bls_IC) (map (fofZ (F := BLS)) bls_C)
           (map (map (fofZ (F := BLS))) bls_K) 4 5 bls_alpha_inv 12.
