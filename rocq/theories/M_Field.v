(** The field interface used by the generic macros define_ec_core, define_isogeny_structure, define_theta_structure
    (src/eccore.rs, src/isogeny.rs, src/theta.rs), which are written for any type [Fq]; and its instance, the quadratic
    extension of M_Fp2.v.  Masks (u32 values 0 / 0xFFFFFFFF) are booleans at this level: the instance converts with [mask32]
    and calls the modelled constant-time functions; C08 and C15 show those functions return and consume exact masks.
    pow_big and pow_small never panic (C21), so the [None] branches of [fpow] and [fpow_small] are dead. *)
From Coq Require Import ZArith List Bool.
From Verif Require Import M_Utils64 M_Consts M_Fp M_Fp2 S_Fp S_Fp2.
Import ListNotations.
Open Scope Z_scope.

Record fops (F : Type) : Type := mkFops {
  fzero : F; fone : F; ftwo : F; fthree : F; ffour : F; fzeta : F;
  fadd : F -> F -> F; fsub : F -> F -> F; fneg : F -> F; fmul : F -> F -> F; fsq : F -> F;
  fhalf : F -> F; fmul2 : F -> F; fmul3 : F -> F; fmul4 : F -> F; fmul8 : F -> F;
  finv : F -> F; fdiv : F -> F -> F;
  fis0 : F -> bool; feqb : F -> F -> bool;
  fcond : F -> F -> bool -> F; fcneg : F -> bool -> F; fswap : F -> F -> bool -> F * F;
  fsqrt : F -> F * bool; fleg : F -> Z;
  fpow : F -> Z -> F; fpow_small : F -> Z -> F;
  frand : list (list Z) -> option (F * list (list Z)); fenc : F -> list Z; fdec : list Z -> F * bool }.
Arguments fzero {F}. Arguments fone {F}. Arguments ftwo {F}. Arguments fthree {F}. Arguments ffour {F}. Arguments fzeta {F}.
Arguments fadd {F}. Arguments fsub {F}. Arguments fneg {F}. Arguments fmul {F}. Arguments fsq {F}.
Arguments fhalf {F}. Arguments fmul2 {F}. Arguments fmul3 {F}. Arguments fmul4 {F}. Arguments fmul8 {F}.
Arguments finv {F}. Arguments fdiv {F}. Arguments fis0 {F}. Arguments feqb {F}.
Arguments fcond {F}. Arguments fcneg {F}. Arguments fswap {F}. Arguments fsqrt {F}. Arguments fleg {F}. Arguments fpow {F}. Arguments fpow_small {F}. Arguments frand {F}. Arguments fenc {F}. Arguments fdec {F}.

(** The instance works on limb pairs directly; well-formedness is carried by the type [fq] of L_Field.v. *)
Definition raw_ops : fops fp2 := {|
  fzero := f2_zero; fone := f2_one; ftwo := f2_two; fthree := f2_three; ffour := f2_four; fzeta := f2_zeta;
  fadd := f2_add; fsub := f2_sub; fneg := f2_neg; fmul := f2_mul; fsq := f2_square;
  fhalf := f2_half; fmul2 := f2_mul2; fmul3 := f2_mul3; fmul4 := f2_mul4; fmul8 := f2_mul8;
  finv := f2_invert; fdiv := f2_div;
  fis0 := fun x => negb (f2_iszero x =? 0); feqb := fun x y => negb (f2_equals x y =? 0);
  fcond := fun x y b => f2_set_cond x y (mask32 b); fcneg := fun x b => f2_set_condneg x (mask32 b);
  fswap := fun x y b => f2_condswap x y (mask32 b);
  fsqrt := fun x => (fst (f2_sqrt x), negb (snd (f2_sqrt x) =? 0)); fleg := f2_legendre;
  fpow := fun x e => match f2_pow_big x e with Some r => r | None => f2_zero end;
  fpow_small := fun x e => match f2_pow_small x e with Some r => r | None => f2_zero end;
  frand := f2_rand; fenc := f2_encode; fdec := fun b => (fst (f2_decode b), negb (snd (f2_decode b) =? 0)) |}.
