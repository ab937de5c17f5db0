(** Specification of the base field, independent of the code: the prime, the integers represented by
    limb lists, and the residue an element stands for. *)
From Coq Require Import ZArith List.
Import ListNotations.
Open Scope Z_scope.

(** The characteristic, as one integer. *)
Definition P : Z := 124813370954946046625522215052328020445810037362111132960613286328441356722257752720010881927037475586399470137805050608043019087433283648739803958123964308223782110847178313188451195825370794537039688326247916639251700565349771267011273687997230352082398376708996664995018346239500252227115749220824758109724758742435933984445935095514141882211364143691731115285217804939575916379504639999.

(** 2^1344 is the Montgomery factor of a 21-limb representation; [RINV] is its inverse modulo [P]
    (checked in L_Fp.v). *)
Definition RR : Z := 2 ^ 1344.
Definition RINV : Z := 13799245168234994455434367718626322478957954651800737384599976042973530368994061783639547588156024646668330751794060178918061409852019614395061793510485616440768600206166082506389688565197514943894442508898348702562502914439338857260901510835845779096761010764395072316005352742623728814233219142282922543149158954538056193833044439061377803125311344713137986507076327952416155096802828287.

Definition word (x : Z) : Prop := 0 <= x < 18446744073709551616.
Definition words (l : list Z) : Prop := Forall word l.

(** Integer value of a little-endian list of 64-bit limbs. *)
Fixpoint eval (l : list Z) : Z :=
  match l with [] => 0 | x :: l' => x + 18446744073709551616 * eval l' end.

(** A well-formed element: 21 words whose value is below the modulus. *)
Definition canon (a : list Z) : Prop := length a = 21%nat /\ words a /\ eval a < P.

(** The residue modulo [P], in [[0, P)], that an element stands for. *)
Definition val (a : list Z) : Z := (eval a * RINV) mod P.

(** The two control words. *)
Definition TRUE32 : Z := 4294967295.
Definition mask32 (b : bool) : Z := if b then TRUE32 else 0.

(** Byte strings and the integer they denote (unsigned little-endian). *)
Definition byte (b : Z) : Prop := 0 <= b < 256.
Definition bytes (l : list Z) : Prop := Forall byte l.
Fixpoint le_value (l : list Z) : Z := match l with [] => 0 | b :: l' => b + 256 * le_value l' end.

(** Number of significant bits of a non-negative integer. *)
Definition bitlength (x : Z) : Z := if x =? 0 then 0 else Z.log2 x + 1.
