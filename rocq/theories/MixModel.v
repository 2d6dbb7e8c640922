(** Model of the balance check of the anonymous-transfer builder and of the
    asset-mixing circuit: api/src/anon_xfr/mod.rs 44-105 and
    api/src/anon_xfr/abar_to_abar.rs 674-786. *)
From Coq Require Import List NArith ZArith Bool.
From Verif Require Import Base Field PField TurboModel XfrModel.
Import ListNotations.

(** mod.rs 44-47: the fee is paid in the asset type whose 32 bytes are zero.
    Asset types are numbers here, as in XfrModel. *)
Definition FEE_TYPE : N := 0%N.

(** mod.rs 66-105 [check_asset_amount].  The HashMap is an association list; the
    code's iteration order over it is arbitrary, but the result does not depend
    on it (every entry is tested).  The i128 additions panic on overflow in a
    checked build.  A record is the pair (amount, asset type). *)
Definition balances := list (N * Z).
Fixpoint bump (m : balances) (t : N) (v : Z) : res balances :=
  match m with
  | [] => Ok [(t, v)]
  | (t', s) :: m' => if N.eqb t' t then rmap (fun s' => (t', s') :: m') (i128_add s v)
                     else rmap (cons (t', s)) (bump m' t v)
  end.
Fixpoint collect_balances (sign : Z) (m : balances) (l : list (N * N)) : res balances :=
  match l with
  | [] => Ok m
  | (a, t) :: l' => bind (bump m t (sign * Z.of_N a)) (fun m' => collect_balances sign m' l')
  end.
Definition balance_ok (fee : N) (e : N * Z) : bool :=
  if negb (N.eqb (fst e) FEE_TYPE) then Z.eqb (snd e) 0 else Z.eqb (snd e) (Z.of_N fee).
Definition check_asset_amount (ins outs : list (N * N)) (fee : N) : res unit :=
  bind (collect_balances 1 [] ins) (fun m =>
  bind (collect_balances (-1) m outs) (fun m' =>
  if forallb (balance_ok fee) m' then Ok tt else Err)).

Section Circuit.
Context (F : PField).
Local Open Scope F_scope.
Local Open Scope cs_scope.

(** abar_to_abar.rs 777-786. *)
Definition match_select (t1 t2 v : nat) : CS F nat :=
  e <- is_equal F t1 t2 ;; mul F e v.

(** abar_to_abar.rs 686-701, 704-720: one sum, then all of them.  A record is the
    pair of variables (asset type, amount). *)
Fixpoint sum_matching (t : nat) (others : list (nat * nat)) (sum : nat) : CS F nat :=
  match others with
  | [] => ret sum
  | (t', v) :: rest => a <- match_select t t' v ;; s <- add F sum a ;; sum_matching t rest s
  end.
Fixpoint type_sums (todo all : list (nat * nat)) : CS F (list (nat * nat)) :=
  match todo with
  | [] => ret []
  | (t, _) :: rest =>
      s <- sum_matching t all zero_var ;; r <- type_sums rest all ;; ret ((t, s) :: r)
  end.

(** abar_to_abar.rs 738-753. *)
Fixpoint match_outputs (it isum is_fee not_fee fee flag : nat) (outs : list (nat * nat)) : CS F nat :=
  match outs with
  | [] => ret flag
  | (ot, osum) :: rest =>
      p <- is_equal_or_not_equal F it ot ;;
      flag' <- mul F flag (snd p) ;;
      diff <- sub F isum osum ;;
      a <- mul F (fst p) not_fee ;;
      insert_mul_gate F a diff zero_var ;;
      b <- mul F (fst p) is_fee ;;
      dmf <- sub F diff fee ;;
      insert_mul_gate F b dmf zero_var ;;
      match_outputs it isum is_fee not_fee fee flag' rest
  end.
(** abar_to_abar.rs 729-761. *)
Fixpoint per_input (ins : list (nat * nat)) (outs : list (nat * nat)) (ftv fee flag : nat) : CS F nat :=
  match ins with
  | [] => ret flag
  | (it, isum) :: rest =>
      p <- is_equal_or_not_equal F it ftv ;;
      flag' <- mul F flag (snd p) ;;
      nomatch <- match_outputs it isum (fst p) (snd p) fee one_var outs ;;
      insert_mul_gate F (snd p) nomatch zero_var ;;
      imf <- sub F isum fee ;;
      cond <- mul F (fst p) nomatch ;;
      insert_mul_gate F cond imf zero_var ;;
      per_input rest outs ftv fee flag'
  end.
(** abar_to_abar.rs 764-774. *)
Fixpoint type_product (ins : list (nat * nat)) (ot product : nat) : CS F nat :=
  match ins with
  | [] => ret product
  | (it, _) :: rest => d <- sub F it ot ;; p <- mul F product d ;; type_product rest ot p
  end.
Fixpoint outputs_covered (outs ins : list (nat * nat)) : CS F unit :=
  match outs with
  | [] => ret tt
  | (ot, _) :: rest =>
      p <- type_product ins ot one_var ;; insert_constant_gate F p 0 ;; outputs_covered rest ins
  end.
(** abar_to_abar.rs 678-775 [asset_mixing]. *)
Definition asset_mixing (ins outs : list (nat * nat)) (fee_type : F) (fee_var : nat) : CS F unit :=
  isums <- type_sums ins ins ;;
  osums <- type_sums outs outs ;;
  ftv <- new_variable F fee_type ;;
  insert_constant_gate F ftv fee_type ;;
  flag <- per_input isums osums ftv fee_var one_var ;;
  insert_constant_gate F flag 0 ;;
  outputs_covered outs ins.
End Circuit.
