(** Level-2 Kummer surfaces in coordinates: the isogeny to the dual coordinates, the Hadamard transform and doubling, over any field. *)
From Coq Require Import Arith Ring Field Lia.
From Verif Require Import S_Theta S_KummerSurf.
Section K.
Context {K : Type} {k0 k1 : K} {kadd kmul ksub : K -> K -> K} {kopp : K -> K} {kdiv : K -> K -> K} {kinv : K -> K}.
Context (FT : field_theory k0 k1 kadd kmul ksub kopp kdiv kinv (@eq K)) (two_nz : kadd k1 k1 <> k0).
Add Field Kf : FT.
Local Notation "0" := k0. Local Notation "1" := k1.
Local Infix "+" := kadd. Local Infix "*" := kmul. Local Infix "-" := ksub. Local Infix "/" := kdiv. Local Notation "- x" := (kopp x).
Local Notation "2" := (1+1). Local Notation "4" := (2+2).
(** ** In coordinates; a b c d and x y z t below are squares *)
Definition Fk (a b c d : K) := (a*a+b*b-c*c-d*d)/(a*b-c*d).
Definition s4 (a b c d : K) := a*a+b*b+c*c+d*d.
Definition Gk a b c d := Fk a b c d*(a*b+c*d)+Fk a c b d*(a*c+b*d)+Fk a d b c*(a*d+b*c) - s4 a b c d.
Definition Qk a b c d x y z t := s4 x y z t - (Fk a b c d*(x*y+z*t)+Fk a c b d*(x*z+y*t)+Fk a d b c*(x*t+y*z)).
Definition Lk a b c d x y z t := Qk a b c d (x*x/a) (y*y/b) (z*z/c) (t*t/d) + Gk a b c d * (x*y*z*t)/(a*b*c*d).
Definition dist (a b c d : K) := a*b-c*d <> 0 /\ a*c-b*d <> 0 /\ a*d-b*c <> 0.
Definition nz4 (a b c d : K) := a <> 0 /\ b <> 0 /\ c <> 0 /\ d <> 0.
Definition hd0 (a b c d : K) := a+b+c+d. Definition hd1 (a b c d : K) := a-b+c-d. Definition hd2 (a b c d : K) := a+b-c-d. Definition hd3 (a b c d : K) := a-b-c+d.
Lemma mul_nz x y : x <> 0 -> y <> 0 -> x * y <> 0.
Proof. intros Hx Hy E. apply Hy. transitivity ((x * y) / x); [field; exact Hx|]. rewrite E. field. exact Hx. Qed.
Lemma mul_nz_l x y : x * y <> 0 -> x <> 0. Proof. intros H E. apply H. rewrite E. ring. Qed.
Lemma mul_nz_r x y : x * y <> 0 -> y <> 0. Proof. intros H E. apply H. rewrite E. ring. Qed.
Lemma four_nz : 4 <> 0. Proof. replace 4 with (2 * 2) by ring. apply mul_nz; exact two_nz. Qed.
Lemma cancel x y : x <> 0 -> y * x = 0 -> y = 0.
Proof. intros Hx H. transitivity ((y * x) / x); [field; exact Hx|]. rewrite H. field. exact Hx. Qed.
(* coefficients of the quartic in A B C D = Hadamard of a b c d, after the change of variables; e.g. r31 is that of x^3 y *)
Section Coef.
Context (A B C D : K) (NA : A <> 0) (NB : B <> 0) (NC : C <> 0) (ND : D <> 0) (N1 : A*C-B*D <> 0) (N2 : A*B-C*D <> 0) (N3 : A*D-B*C <> 0).
Let P := A*B*C*D.
Let f1 := 2*(A*C+B*D)/(A*C-B*D). Let f2 := 2*(A*B+C*D)/(A*B-C*D). Let f3 := 2*(A*D+B*C)/(A*D-B*C).
Let q2 := (A*A+B*B-C*C-D*D)/(A*B-C*D). Let q1 := (A*A+C*C-B*B-D*D)/(A*C-B*D). Let q3 := (A*A+D*D-B*B-C*C)/(A*D-B*C).
Let h := q2*(A*B+C*D)+q1*(A*C+B*D)+q3*(A*D+B*C) - (A*A+B*B+C*C+D*D).
Let kap := - ((A*C-B*D)*(A*B-C*D)*(A*D-B*C))/(P*P).
Let c0 := 1/(A*A). Let c1 := 1/(B*B). Let c2 := 1/(C*C). Let c3 := 1/(D*D).
Let d01 := q2/(A*B). Let d23 := q2/(C*D). Let d02 := q1/(A*C). Let d13 := q1/(B*D). Let d03 := q3/(A*D). Let d12 := q3/(B*C). Let e := h/P.
Ltac go := unfold kap, f1, f2, f3, c0, c1, c2, c3, d01, d23, d02, d13, d03, d12, e, h, q1, q2, q3, P in *; field; repeat split; assumption.
Lemma r4 : c0+c1+c2+c3-(d01+d23+d02+d13+d03+d12)+e = kap. Proof. go. Qed.
Lemma r31_1 : 4*(c0-c1+c2-c3)-4*(d02-d13) = - (2*f1*kap). Proof. go. Qed.
Lemma r31_2 : 4*(c0+c1-c2-c3)-4*(d01-d23) = - (2*f2*kap). Proof. go. Qed.
Lemma r31_3 : 4*(c0-c1-c2+c3)-4*(d03-d12) = - (2*f3*kap). Proof. go. Qed.
Lemma r22_1 : (4+2)*(c0+c1+c2+c3)-(4+2)*(d02+d13)+2*(d01+d23+d03+d12)-2*e = kap*(2+f1*f1). Proof. go. Qed.
Lemma r22_2 : (4+2)*(c0+c1+c2+c3)-(4+2)*(d01+d23)+2*(d02+d13+d03+d12)-2*e = kap*(2+f2*f2). Proof. go. Qed.
Lemma r22_3 : (4+2)*(c0+c1+c2+c3)-(4+2)*(d03+d12)+2*(d02+d13+d01+d23)-2*e = kap*(2+f3*f3). Proof. go. Qed.
Lemma d_1 : 4*2*(d02-d13) = kap*(f2*f3+2*f1). Proof. go. Qed.
Lemma d_2 : 4*2*(d01-d23) = kap*(f1*f3+2*f2). Proof. go. Qed.
Lemma d_3 : 4*2*(d03-d12) = kap*(f1*f2+2*f3). Proof. go. Qed.
Lemma r1111 : (A+B+C+D)*(A-B+C-D)*(A+B-C-D)*(A-B-C+D) <> 0 -> 4*2*(2+1)*(c0+c1+c2+c3)+4*2*(d01+d23+d02+d13+d03+d12)+4*2*e =
  kap*(2*(f1*f1+f2*f2+f3*f3) - 4*4*h*h/((A+B+C+D)*(A-B+C-D)*(A+B-C-D)*(A-B-C+D))).
Proof. intros Hn. pose proof (mul_nz_r _ _ Hn) as Z3. apply mul_nz_l in Hn. pose proof (mul_nz_r _ _ Hn) as Z2. apply mul_nz_l in Hn. pose proof (mul_nz_r _ _ Hn) as Z1. apply mul_nz_l in Hn. go. Qed.
End Coef.
Lemma R_expand c0 c1 c2 c3 d01 d23 d02 d13 d03 d12 e x y z t : let X := x+y+z+t in let Y := x-y+z-t in let Z := x+y-z-t in let T := x-y-z+t in
  c0*(X*X*(X*X))+c1*(Y*Y*(Y*Y))+c2*(Z*Z*(Z*Z))+c3*(T*T*(T*T)) - (d01*(X*X*(Y*Y))+d23*(Z*Z*(T*T))) - (d02*(X*X*(Z*Z))+d13*(Y*Y*(T*T))) - (d03*(X*X*(T*T))+d12*(Y*Y*(Z*Z))) + e*(X*Y*Z*T) =
  (c0+c1+c2+c3-(d01+d23+d02+d13+d03+d12)+e)*(x*x*(x*x)+y*y*(y*y)+z*z*(z*z)+t*t*(t*t))
  + (4*(c0-c1+c2-c3)-4*(d02-d13))*(x*y*(x*x+y*y)+z*t*(z*z+t*t)+(2+1)*((x*x+y*y)*(z*t)+(z*z+t*t)*(x*y))) + 2*(4*2*(d02-d13))*((x*x+y*y)*(z*t)+(z*z+t*t)*(x*y))
  + (4*(c0+c1-c2-c3)-4*(d01-d23))*(x*z*(x*x+z*z)+y*t*(y*y+t*t)+(2+1)*((x*x+z*z)*(y*t)+(y*y+t*t)*(x*z))) + 2*(4*2*(d01-d23))*((x*x+z*z)*(y*t)+(y*y+t*t)*(x*z))
  + (4*(c0-c1-c2+c3)-4*(d03-d12))*(x*t*(x*x+t*t)+y*z*(y*y+z*z)+(2+1)*((x*x+t*t)*(y*z)+(y*y+z*z)*(x*t))) + 2*(4*2*(d03-d12))*((x*x+t*t)*(y*z)+(y*y+z*z)*(x*t))
  + ((4+2)*(c0+c1+c2+c3)-(4+2)*(d02+d13)+2*(d01+d23+d03+d12)-2*e)*(x*x*(y*y)+z*z*(t*t))
  + ((4+2)*(c0+c1+c2+c3)-(4+2)*(d01+d23)+2*(d02+d13+d03+d12)-2*e)*(x*x*(z*z)+y*y*(t*t))
  + ((4+2)*(c0+c1+c2+c3)-(4+2)*(d03+d12)+2*(d02+d13+d01+d23)-2*e)*(x*x*(t*t)+y*y*(z*z))
  + (4*2*(2+1)*(c0+c1+c2+c3)+4*2*(d01+d23+d02+d13+d03+d12)+4*2*e)*(x*y*z*t).
Proof. intros X Y Z T. unfold X, Y, Z, T. ring. Qed.
Lemma Gk_had a b c d : dist a b c d -> let A := a+b+c+d in let B := a-b+c-d in let C := a+b-c-d in let D := a-b-c+d in dist A B C D ->
  Fk a b c d = 2*(A*C+B*D)/(A*C-B*D) /\ Fk a c b d = 2*(A*B+C*D)/(A*B-C*D) /\ Fk a d b c = 2*(A*D+B*C)/(A*D-B*C) /\ 4 * Gk a b c d = Gk A B C D.
Proof.
  intros (D1 & D2 & D3) A B C D (E2 & E1 & E3).
  assert (H1 : Fk a b c d = 2*(A*C+B*D)/(A*C-B*D)) by (unfold Fk, A, B, C, D in *; field; split; assumption).
  assert (H2 : Fk a c b d = 2*(A*B+C*D)/(A*B-C*D)) by (unfold Fk, A, B, C, D in *; field; split; assumption).
  assert (H3 : Fk a d b c = 2*(A*D+B*C)/(A*D-B*C)) by (unfold Fk, A, B, C, D in *; field; split; assumption).
  split; [exact H1|]. split; [exact H2|]. split; [exact H3|].
  assert (P1 : 2*(4*(a*b+c*d)) = A*A+C*C-B*B-D*D) by (unfold A, B, C, D; ring). assert (P2 : 2*(4*(a*c+b*d)) = A*A+B*B-C*C-D*D) by (unfold A, B, C, D; ring).
  assert (P3 : 2*(4*(a*d+b*c)) = A*A+D*D-B*B-C*C) by (unfold A, B, C, D; ring). assert (P4 : 4*s4 a b c d = s4 A B C D) by (unfold s4, A, B, C, D; ring).
  unfold Gk. rewrite H1, H2, H3. clear H1 H2 H3. rewrite <- P4. unfold Fk. rewrite <- P1, <- P2, <- P3. generalize (s4 a b c d) (a*b+c*d) (a*c+b*d) (a*d+b*c). clearbody A B C D. intros. field. repeat split; assumption.
Qed.
Lemma Lk_id a b c d x y z t : let A := a+b+c+d in let B := a-b+c-d in let C := a+b-c-d in let D := a-b-c+d in
  nz4 a b c d -> nz4 A B C D -> dist a b c d -> dist A B C D ->
  Lk A B C D (x+y+z+t) (x-y+z-t) (x+y-z-t) (x-y-z+t) * (a*b*c*d) =
  - ((A*C-B*D)*(A*B-C*D)*(A*D-B*C))/(A*B*C*D*(A*B*C*D)) * (Qk a b c d x y z t * Qk a b c d x y z t * (a*b*c*d) - Gk a b c d * Gk a b c d * (x*y*z*t)).
Proof.
  intros A B C D (Na & Nb & Nc & Nd) (NA & NB & NC & ND) HD HE. destruct (Gk_had a b c d HD HE) as (E1 & E2 & E3 & EG). fold A B C D in E1, E2, E3, EG. destruct HE as (M2 & M1 & M3). 
  assert (EP : (A+B+C+D)*(A-B+C-D)*(A+B-C-D)*(A-B-C+D) = 4*4*(4*4)*(a*b*c*d)) by (unfold A, B, C, D; ring).
  assert (NP : (A+B+C+D)*(A-B+C-D)*(A+B-C-D)*(A-B-C+D) <> 0) by (rewrite EP; repeat apply mul_nz; first [exact two_nz|exact four_nz|assumption]).
  pose proof (r4 A B C D NA NB NC ND M1 M2 M3) as R4. pose proof (r31_1 A B C D NA NB NC ND M1) as R1. pose proof (r31_2 A B C D NA NB NC ND M2) as R2. pose proof (r31_3 A B C D NA NB NC ND M3) as R3.
  pose proof (r22_1 A B C D NA NB NC ND M1 M2 M3) as S1. pose proof (r22_2 A B C D NA NB NC ND M1 M2 M3) as S2. pose proof (r22_3 A B C D NA NB NC ND M1 M2 M3) as S3.
  pose proof (d_1 A B C D NA NB NC ND M1 M2 M3) as T1. pose proof (d_2 A B C D NA NB NC ND M1 M2 M3) as T2. pose proof (d_3 A B C D NA NB NC ND M1 M2 M3) as T3.
  pose proof (r1111 A B C D NA NB NC ND M1 M2 M3 NP) as R0. cbv zeta in *. rewrite EP in R0.
  change ((A*A+B*B-C*C-D*D)/(A*B-C*D)) with (Fk A B C D) in *. change ((A*A+C*C-B*B-D*D)/(A*C-B*D)) with (Fk A C B D) in *. change ((A*A+D*D-B*B-C*C)/(A*D-B*C)) with (Fk A D B C) in *.
  change (Fk A B C D*(A*B+C*D)+Fk A C B D*(A*C+B*D)+Fk A D B C*(A*D+B*C) - (A*A+B*B+C*C+D*D)) with (Gk A B C D) in *.
  rewrite <- E1, <- E2, <- E3, <- EG in *. set (k := - ((A*C-B*D)*(A*B-C*D)*(A*D-B*C))/(A*B*C*D*(A*B*C*D))) in *.
  transitivity ((1/(A*A)*((x+y+z+t)*(x+y+z+t)*((x+y+z+t)*(x+y+z+t)))+1/(B*B)*((x-y+z-t)*(x-y+z-t)*((x-y+z-t)*(x-y+z-t)))+1/(C*C)*((x+y-z-t)*(x+y-z-t)*((x+y-z-t)*(x+y-z-t)))+1/(D*D)*((x-y-z+t)*(x-y-z+t)*((x-y-z+t)*(x-y-z+t)))
    - (Fk A B C D/(A*B)*((x+y+z+t)*(x+y+z+t)*((x-y+z-t)*(x-y+z-t)))+Fk A B C D/(C*D)*((x+y-z-t)*(x+y-z-t)*((x-y-z+t)*(x-y-z+t))))
    - (Fk A C B D/(A*C)*((x+y+z+t)*(x+y+z+t)*((x+y-z-t)*(x+y-z-t)))+Fk A C B D/(B*D)*((x-y+z-t)*(x-y+z-t)*((x-y-z+t)*(x-y-z+t))))
    - (Fk A D B C/(A*D)*((x+y+z+t)*(x+y+z+t)*((x-y-z+t)*(x-y-z+t)))+Fk A D B C/(B*C)*((x-y+z-t)*(x-y+z-t)*((x+y-z-t)*(x+y-z-t))))
    + 4*Gk a b c d/(A*B*C*D)*((x+y+z+t)*(x-y+z-t)*(x+y-z-t)*(x-y-z+t))) * (a*b*c*d)).
  { f_equal. unfold Lk, Qk, s4. rewrite <- EG. generalize (x+y+z+t) (x-y+z-t) (x+y-z-t) (x-y-z+t) (Fk A B C D) (Fk A C B D) (Fk A D B C) (Gk a b c d). clearbody A B C D. intros. field. repeat split; assumption. }
  rewrite R_expand. cbv zeta. rewrite R4, R1, R2, R3, S1, S2, S3, T1, T2, T3, R0. unfold Qk, s4. clear R4 R1 R2 R3 S1 S2 S3 T1 T2 T3 R0 E1 E2 E3. clearbody k.
  generalize (Fk a b c d) (Fk a c b d) (Fk a d b c) (Gk a b c d). clear - FT two_nz Na Nb Nc Nd. intros f1 f2 f3 g.
  replace (2*(f1*f1+f2*f2+f3*f3)-4*4*(4*g)*(4*g)/(4*4*(4*4)*(a*b*c*d))) with (2*(f1*f1+f2*f2+f3*f3)-g*g*(1/(a*b*c*d))).
  - assert (EW : 1/(a*b*c*d)*(a*b*c*d) = 1) by (field; repeat split; assumption). set (w := 1/(a*b*c*d)) in *. set (v := a*b*c*d) in *. clearbody w v.
    transitivity (k * ((s4 x y z t - (f1*(x*y+z*t)+f2*(x*z+y*t)+f3*(x*t+y*z)))*(s4 x y z t - (f1*(x*y+z*t)+f2*(x*z+y*t)+f3*(x*t+y*z)))*v - g*g*(x*y*z*t)*(w*v))); [unfold s4; ring|rewrite EW; unfold s4; ring].
  - pose proof four_nz as N4. set (q := 4) in *. clearbody q. field. repeat split; assumption.
Qed.
(** doubling commutes with the Hadamard transform *)
Lemma comm_e a b c d S u0 u1 u2 u3 p1 h0 h1 h2 h3 : nz4 a b c d -> nz4 u0 u1 u2 u3 -> p1 <> 0 -> a*a*(b*b)-c*c*(d*d) <> 0 -> S <> 0 ->
  S = a+b+c+d -> u0 = a*a+b*b+c*c+d*d -> u1 = a*a-b*b+c*c-d*d -> u2 = a*a+b*b-c*c-d*d -> u3 = a*a-b*b-c*c+d*d -> p1 = a*b+c*d -> h0 = 1/a+1/b+1/c+1/d -> h1 = 1/a-1/b+1/c-1/d -> h2 = 1/a+1/b-1/c-1/d -> h3 = 1/a-1/b-1/c+1/d ->
  2*(h0/u0-h1/u1+h2/u2-h3/u3) - 2*4/S*(1/u0+1/p1) = - Fk (a*a) (b*b) (c*c) (d*d) * (h0/u0+h1/u1+h2/u2+h3/u3 - 4/(S*u0)).
Proof. intros (? & ? & ? & ?) (? & ? & ? & ?). intros. subst. unfold Fk. field. repeat split; assumption. Qed.
Lemma comm_lam a b c d S u0 u1 u2 u3 p1 p2 p3 h0 h1 h2 h3 : nz4 a b c d -> nz4 u0 u1 u2 u3 -> S <> 0 ->
  S = a+b+c+d -> u0 = a*a+b*b+c*c+d*d -> u1 = a*a-b*b+c*c-d*d -> u2 = a*a+b*b-c*c-d*d -> u3 = a*a-b*b-c*c+d*d -> p1 = a*b+c*d -> p2 = a*c+b*d -> p3 = a*d+b*c -> h0 = 1/a+1/b+1/c+1/d -> h1 = 1/a-1/b+1/c-1/d -> h2 = 1/a+1/b-1/c-1/d -> h3 = 1/a-1/b-1/c+1/d ->
  h0/u0+h1/u1+h2/u2+h3/u3 - 4/(S*u0) = - (4*2*((a*b-c*d)*(a*c-b*d)*(a*d-b*c))*(p1*p2+p1*p3+p2*p3))/(a*b*c*d*S*(u0*u1*u2*u3)).
Proof. intros (? & ? & ? & ?) (? & ? & ? & ?). intros. subst. field. repeat split; assumption. Qed.
Lemma Gk_closed a b c d : dist a b c d -> Gk a b c d = 2 * (a*b*c*d) * ((a+b+c+d)*(a-b+c-d)*(a+b-c-d)*(a-b-c+d)) / ((a*b-c*d)*(a*c-b*d)*(a*d-b*c)).
Proof. intros (D1 & D2 & D3). unfold Gk, Fk, s4. field. repeat split; assumption. Qed.
Lemma comm_0 a b c d S u0 u1 u2 u3 p1 p2 p3 h0 h1 h2 h3 e0 e1 e2 e3 m : nz4 a b c d -> nz4 u0 u1 u2 u3 -> p1 <> 0 -> p2 <> 0 -> p3 <> 0 -> dist (a*a) (b*b) (c*c) (d*d) -> S <> 0 ->
  S = a+b+c+d -> u0 = a*a+b*b+c*c+d*d -> u1 = a*a-b*b+c*c-d*d -> u2 = a*a+b*b-c*c-d*d -> u3 = a*a-b*b-c*c+d*d -> p1 = a*b+c*d -> p2 = a*c+b*d -> p3 = a*d+b*c -> h0 = 1/a+1/b+1/c+1/d -> h1 = 1/a-1/b+1/c-1/d -> h2 = 1/a+1/b-1/c-1/d -> h3 = 1/a-1/b-1/c+1/d ->
  e0 = Fk (a*a) (b*b) (c*c) (d*d) * e1 + Fk (a*a) (c*c) (b*b) (d*d) * e2 + Fk (a*a) (d*d) (b*b) (c*c) * e3 - Gk (a*a) (b*b) (c*c) (d*d) * m / (a*b*c*d) ->
  (e0+2*(e1+e2+e3))*(h0/u0) + (e0+2*(e2-e1-e3))*(h1/u1) + (e0+2*(e1-e2-e3))*(h2/u2) + (e0+2*(e3-e2-e1))*(h3/u3) =
  4/S*((e0+2*(e1+e2+e3))*(1/u0) + 2*((e1+2*m)*(1/p1)) + 2*((e2+2*m)*(1/p2)) + 2*((e3+2*m)*(1/p3))).
Proof.
  intros Nz Nu N1 N2 N3 HD NS ES U0 U1 U2 U3 P1 P2 P3 H0 H1 H2 H3 E0. pose proof HD as (D1 & D2 & D3).
  assert (K1 := comm_e a b c d S u0 u1 u2 u3 p1 h0 h1 h2 h3 Nz Nu N1 D1 NS ES U0 U1 U2 U3 P1 H0 H1 H2 H3).
  assert (K2 : 2*(h0/u0-h2/u2+h1/u1-h3/u3) - 2*4/S*(1/u0+1/p2) = - Fk (a*a) (c*c) (b*b) (d*d) * (h0/u0+h2/u2+h1/u1+h3/u3 - 4/(S*u0))).
  { destruct Nz as (? & ? & ? & ?), Nu as (? & ? & ? & ?). apply comm_e; try assumption; repeat split; try assumption; rewrite ?ES, ?U0, ?U1, ?U2, ?U3, ?P2, ?H0, ?H1, ?H2, ?H3; ring. }
  assert (K3 : 2*(h0/u0-h2/u2+h3/u3-h1/u1) - 2*4/S*(1/u0+1/p3) = - Fk (a*a) (d*d) (b*b) (c*c) * (h0/u0+h2/u2+h3/u3+h1/u1 - 4/(S*u0))).
  { destruct Nz as (? & ? & ? & ?), Nu as (? & ? & ? & ?). apply comm_e; try assumption; repeat split; try assumption; rewrite ?ES, ?U0, ?U1, ?U2, ?U3, ?P3, ?H0, ?H1, ?H2, ?H3; ring. }
  assert (KL := comm_lam a b c d S u0 u1 u2 u3 p1 p2 p3 h0 h1 h2 h3 Nz Nu NS ES U0 U1 U2 U3 P1 P2 P3 H0 H1 H2 H3).
  assert (KM : (h0/u0+h1/u1+h2/u2+h3/u3 - 4/(S*u0)) * (Gk (a*a) (b*b) (c*c) (d*d) / (a*b*c*d)) = - (4*4/S*(1/p1+1/p2+1/p3))).
  { rewrite KL, (Gk_closed _ _ _ _ HD). rewrite <- U0, <- U1, <- U2, <- U3. replace (a*a*(b*b)-c*c*(d*d)) with ((a*b-c*d)*p1) in * by (rewrite P1; ring). replace (a*a*(c*c)-b*b*(d*d)) with ((a*c-b*d)*p2) in * by (rewrite P2; ring). replace (a*a*(d*d)-b*b*(c*c)) with ((a*d-b*c)*p3) in * by (rewrite P3; ring).
    destruct Nz as (? & ? & ? & ?), Nu as (? & ? & ? & ?). apply mul_nz_l in D1, D2, D3. clear - FT N1 N2 N3 NS D1 D2 D3 H H4 H5 H6 H7 H8 H9 H10. field. repeat split; assumption. }
  clear KL U0 U1 U2 U3 P1 P2 P3 ES H0 H1 H2 H3. destruct Nu as (Nu0 & _).
  assert (EL : h0/u0+h2/u2+h1/u1+h3/u3 - 4/(S*u0) = h0/u0+h1/u1+h2/u2+h3/u3 - 4/(S*u0)) by ring. rewrite EL in K2.
  assert (EL' : h0/u0+h2/u2+h3/u3+h1/u1 - 4/(S*u0) = h0/u0+h1/u1+h2/u2+h3/u3 - 4/(S*u0)) by ring. rewrite EL' in K3. clear EL EL'.
  replace (4/(S*u0)) with (4*((1/S)*(1/u0))) in * by (field; split; assumption). replace (2*4/S) with (2*4*(1/S)) in * by (field; assumption). replace (4*4/S) with (4*4*(1/S)) in * by (field; assumption). replace (4/S) with (4*(1/S)) by (field; assumption).
  replace (Gk (a*a) (b*b) (c*c) (d*d) * m / (a*b*c*d)) with (Gk (a*a) (b*b) (c*c) (d*d) / (a*b*c*d) * m) in E0 by (destruct Nz as (? & ? & ? & ?); generalize (Gk (a*a) (b*b) (c*c) (d*d)); intros; field; repeat split; assumption).
  set (G := Gk (a*a) (b*b) (c*c) (d*d) / (a*b*c*d)) in *. set (F1 := Fk (a*a) (b*b) (c*c) (d*d)) in *. set (F2 := Fk (a*a) (c*c) (b*b) (d*d)) in *. set (F3 := Fk (a*a) (d*d) (b*b) (c*c)) in *.
  set (r0 := h0/u0) in *. set (r1 := h1/u1) in *. set (r2 := h2/u2) in *. set (r3 := h3/u3) in *. set (iS := 1/S) in *. set (iu := 1/u0) in *. set (i1 := 1/p1) in *. set (i2 := 1/p2) in *. set (i3 := 1/p3) in *.
  clearbody G F1 F2 F3 r0 r1 r2 r3 iS iu i1 i2 i3. clear - FT K1 K2 K3 KM E0. set (l := r0+r1+r2+r3-4*(iS*iu)) in *.
  assert (Z : forall X Y : K, X - Y = 0 -> X = Y) by (intros X Y HZ; transitivity (X - Y + Y); [ring|rewrite HZ; ring]). apply Z.
  transitivity (e0*l + e1*(2*(r0-r1+r2-r3)-2*4*iS*(iu+i1)) + e2*(2*(r0-r2+r1-r3)-2*4*iS*(iu+i2)) + e3*(2*(r0-r2+r3-r1)-2*4*iS*(iu+i3)) - m*(4*4*iS*(i1+i2+i3))); [unfold l; ring|].
  rewrite K1, K2, K3, E0. transitivity (- (m*(l*G)) - m*(4*4*iS*(i1+i2+i3))); [ring|rewrite KM; ring].
Qed.
Lemma opp_nz x : x <> 0 -> - x <> 0. Proof. intros H E. apply H. transitivity (- - x); [ring|rewrite E; ring]. Qed.
(** the quartic with null point a b c d, no longer squares *)
Definition qr a b c d x y z t := Qk (a*a) (b*b) (c*c) (d*d) (x*x) (y*y) (z*z) (t*t) + Gk (a*a) (b*b) (c*c) (d*d) * (x*y*z*t)/(a*b*c*d).
(** Hadamard on the quartic *)
Lemma qr_had a b c d x y z t : let A := a+b+c+d in let B := a-b+c-d in let C := a+b-c-d in let D := a-b-c+d in
  nz4 a b c d -> nz4 A B C D -> dist (a*a) (b*b) (c*c) (d*d) -> dist (A*A) (B*B) (C*C) (D*D) -> qr a b c d x y z t = 0 -> qr A B C D (x+y+z+t) (x-y+z-t) (x+y-z-t) (x-y-z+t) = 0.
Proof.
  intros A B C D (Na & Nb & Nc & Nd) (NA & NB & NC & ND) (D1 & D2 & D3) (D4 & D5 & D6) H.
  set (e1 := x*x*(y*y)+z*z*(t*t)). set (e2 := x*x*(z*z)+y*y*(t*t)). set (e3 := x*x*(t*t)+y*y*(z*z)). set (m := x*y*z*t).
  set (F1 := Fk (a*a) (b*b) (c*c) (d*d)). set (F2 := Fk (a*a) (c*c) (b*b) (d*d)). set (F3 := Fk (a*a) (d*d) (b*b) (c*c)). set (g := Gk (a*a) (b*b) (c*c) (d*d)).
  assert (E0 : x*x*(x*x)+y*y*(y*y)+z*z*(z*z)+t*t*(t*t) = F1*e1+F2*e2+F3*e3 - g*m/(a*b*c*d)).
  { unfold qr, Qk, s4 in H. fold F1 F2 F3 g m in H. fold e1 e2 e3 in H. 
    transitivity (x * x * (x * x) + y * y * (y * y) + z * z * (z * z) + t * t * (t * t) - (F1 * e1 + F2 * e2 + F3 * e3) + g * m / (a * b * c * d) + (F1*e1+F2*e2+F3*e3 - g*m/(a*b*c*d))); [ring|rewrite H; ring]. }
  set (e0 := x*x*(x*x)+y*y*(y*y)+z*z*(z*z)+t*t*(t*t)) in *.
  assert (X0 : s4 ((x+y+z+t)*(x+y+z+t)) ((x-y+z-t)*(x-y+z-t)) ((x+y-z-t)*(x+y-z-t)) ((x-y-z+t)*(x-y-z+t)) = 4*e0 + 4*(4+2)*(e1+e2+e3) + 4*4*(4+2)*m) by (unfold s4, e0, e1, e2, e3, m; ring).
  assert (X1 : (x+y+z+t)*(x+y+z+t)*((x-y+z-t)*(x-y+z-t)) + (x+y-z-t)*(x+y-z-t)*((x-y-z+t)*(x-y-z+t)) = 2*e0+4*(2+1)*e2-4*(e1+e3)-4*4*m) by (unfold e0, e1, e2, e3, m; ring).
  assert (X2 : (x+y+z+t)*(x+y+z+t)*((x+y-z-t)*(x+y-z-t)) + (x-y+z-t)*(x-y+z-t)*((x-y-z+t)*(x-y-z+t)) = 2*e0+4*(2+1)*e1-4*(e2+e3)-4*4*m) by (unfold e0, e1, e2, e3, m; ring).
  assert (X3 : (x+y+z+t)*(x+y+z+t)*((x-y-z+t)*(x-y-z+t)) + (x-y+z-t)*(x-y+z-t)*((x+y-z-t)*(x+y-z-t)) = 2*e0+4*(2+1)*e3-4*(e1+e2)-4*4*m) by (unfold e0, e1, e2, e3, m; ring).
  assert (X4 : (x+y+z+t)*(x-y+z-t)*(x+y-z-t)*(x-y-z+t) = e0-2*(e1+e2+e3)+4*2*m) by (unfold e0, e1, e2, e3, m; ring).
  unfold qr, Qk. rewrite X0, X1, X2, X3, X4. clear X0 X1 X2 X3 X4 H. rewrite E0. clearbody e1 e2 e3 m. clear e0 E0. unfold F1, F2, F3, g, Gk, Fk, s4, A, B, C, D in *.
  field. repeat split; assumption.
Qed.
Lemma comm_coef a b c d x y z t : nz4 a b c d -> nz4 (hd0 a b c d) (hd1 a b c d) (hd2 a b c d) (hd3 a b c d) ->
  nz4 (hd0 (a*a) (b*b) (c*c) (d*d)) (hd1 (a*a) (b*b) (c*c) (d*d)) (hd2 (a*a) (b*b) (c*c) (d*d)) (hd3 (a*a) (b*b) (c*c) (d*d)) ->
  a*b+c*d <> 0 -> a*c+b*d <> 0 -> a*d+b*c <> 0 -> dist (a*a) (b*b) (c*c) (d*d) -> qr a b c d x y z t = 0 ->
  let u0 := hd0 (a*a) (b*b) (c*c) (d*d) in let u1 := hd1 (a*a) (b*b) (c*c) (d*d) in let u2 := hd2 (a*a) (b*b) (c*c) (d*d) in let u3 := hd3 (a*a) (b*b) (c*c) (d*d) in
  let w0 := hd0 (x*x) (y*y) (z*z) (t*t) * hd0 (x*x) (y*y) (z*z) (t*t) / u0 in let w1 := hd1 (x*x) (y*y) (z*z) (t*t) * hd1 (x*x) (y*y) (z*z) (t*t) / u1 in
  let w2 := hd2 (x*x) (y*y) (z*z) (t*t) * hd2 (x*x) (y*y) (z*z) (t*t) / u2 in let w3 := hd3 (x*x) (y*y) (z*z) (t*t) * hd3 (x*x) (y*y) (z*z) (t*t) / u3 in
  hd0 w0 w1 w2 w3 / a + hd1 w0 w1 w2 w3 / b + hd2 w0 w1 w2 w3 / c + hd3 w0 w1 w2 w3 / d =
  4 * (w0 + 2 * ((x*y+z*t)*(x*y+z*t)/(a*b+c*d)) + 2 * ((x*z+y*t)*(x*z+y*t)/(a*c+b*d)) + 2 * ((x*t+y*z)*(x*t+y*z)/(a*d+b*c))) / hd0 a b c d /\
  hd0 w0 w1 w2 w3 / a - hd1 w0 w1 w2 w3 / b + hd2 w0 w1 w2 w3 / c - hd3 w0 w1 w2 w3 / d =
  4 * (w0 - 2 * ((x*y+z*t)*(x*y+z*t)/(a*b+c*d)) + 2 * ((x*z+y*t)*(x*z+y*t)/(a*c+b*d)) - 2 * ((x*t+y*z)*(x*t+y*z)/(a*d+b*c))) / hd1 a b c d /\
  hd0 w0 w1 w2 w3 / a + hd1 w0 w1 w2 w3 / b - hd2 w0 w1 w2 w3 / c - hd3 w0 w1 w2 w3 / d =
  4 * (w0 + 2 * ((x*y+z*t)*(x*y+z*t)/(a*b+c*d)) - 2 * ((x*z+y*t)*(x*z+y*t)/(a*c+b*d)) - 2 * ((x*t+y*z)*(x*t+y*z)/(a*d+b*c))) / hd2 a b c d /\
  hd0 w0 w1 w2 w3 / a - hd1 w0 w1 w2 w3 / b - hd2 w0 w1 w2 w3 / c + hd3 w0 w1 w2 w3 / d =
  4 * (w0 - 2 * ((x*y+z*t)*(x*y+z*t)/(a*b+c*d)) - 2 * ((x*z+y*t)*(x*z+y*t)/(a*c+b*d)) + 2 * ((x*t+y*z)*(x*t+y*z)/(a*d+b*c))) / hd3 a b c d.
Proof.
  intros (Na & Nb & Nc & Nd) (NA & NB & NC & ND) (U0 & U1 & U2 & U3) P1 P2 P3 (D1 & D2 & D3) H. cbv zeta.
  set (e1 := x*x*(y*y)+z*z*(t*t)). set (e2 := x*x*(z*z)+y*y*(t*t)). set (e3 := x*x*(t*t)+y*y*(z*z)). set (m := x*y*z*t).
  set (F1 := Fk (a*a) (b*b) (c*c) (d*d)). set (F2 := Fk (a*a) (c*c) (b*b) (d*d)). set (F3 := Fk (a*a) (d*d) (b*b) (c*c)). set (g := Gk (a*a) (b*b) (c*c) (d*d)).
  assert (E0 : x*x*(x*x)+y*y*(y*y)+z*z*(z*z)+t*t*(t*t) = F1*e1+F2*e2+F3*e3 - g*m/(a*b*c*d)).
  { unfold qr, Qk, s4 in H. fold F1 F2 F3 g m in H. fold e1 e2 e3 in H. 
    transitivity (x * x * (x * x) + y * y * (y * y) + z * z * (z * z) + t * t * (t * t) - (F1 * e1 + F2 * e2 + F3 * e3) + g * m / (a * b * c * d) + (F1*e1+F2*e2+F3*e3 - g*m/(a*b*c*d))); [ring|rewrite H; ring]. }
  set (e0 := x*x*(x*x)+y*y*(y*y)+z*z*(z*z)+t*t*(t*t)) in *.
  assert (X0 : hd0 (x*x) (y*y) (z*z) (t*t) * hd0 (x*x) (y*y) (z*z) (t*t) = e0+2*(e1+e2+e3)) by (unfold hd0, e0, e1, e2, e3; ring).
  assert (X1 : hd1 (x*x) (y*y) (z*z) (t*t) * hd1 (x*x) (y*y) (z*z) (t*t) = e0+2*(e2-e1-e3)) by (unfold hd1, e0, e1, e2, e3; ring).
  assert (X2 : hd2 (x*x) (y*y) (z*z) (t*t) * hd2 (x*x) (y*y) (z*z) (t*t) = e0+2*(e1-e2-e3)) by (unfold hd2, e0, e1, e2, e3; ring).
  assert (X3 : hd3 (x*x) (y*y) (z*z) (t*t) * hd3 (x*x) (y*y) (z*z) (t*t) = e0+2*(e3-e2-e1)) by (unfold hd3, e0, e1, e2, e3; ring).
  assert (Y1 : (x*y+z*t)*(x*y+z*t) = e1+2*m) by (unfold e1, m; ring).
  assert (Y2 : (x*z+y*t)*(x*z+y*t) = e2+2*m) by (unfold e2, m; ring).
  assert (Y3 : (x*t+y*z)*(x*t+y*z) = e3+2*m) by (unfold e3, m; ring).
  rewrite X0, X1, X2, X3, Y1, Y2, Y3. clear X0 X1 X2 X3 Y1 Y2 Y3 H. clearbody e0 e1 e2 e3 m. unfold F1, F2, F3, g in E0. clear F1 F2 F3 g x y z t.
  set (u0 := hd0 (a*a) (b*b) (c*c) (d*d)) in *. set (u1 := hd1 (a*a) (b*b) (c*c) (d*d)) in *. set (u2 := hd2 (a*a) (b*b) (c*c) (d*d)) in *. set (u3 := hd3 (a*a) (b*b) (c*c) (d*d)) in *.
  assert (OB : forall x : K, - x * - x = x * x) by (intros; ring).
  repeat apply conj.
  - assert (Q := comm_0 a b c d (hd0 a b c d) u0 u1 u2 u3 (a*b+c*d) (a*c+b*d) (a*d+b*c) (1/a+1/b+1/c+1/d) (1/a-1/b+1/c-1/d) (1/a+1/b-1/c-1/d) (1/a-1/b-1/c+1/d) e0 e1 e2 e3 m).
    rewrite ?OB in Q. replace (a * b * c * d) with (a*b*c*d) in Q by ring.
    transitivity ((e0+2*(e1+e2+e3))*((1/a+1/b+1/c+1/d)/u0) + (e0+2*(e2-e1-e3))*((1/a-1/b+1/c-1/d)/u1) + (e0+2*(e1-e2-e3))*((1/a+1/b-1/c-1/d)/u2) + (e0+2*(e3-e2-e1))*((1/a-1/b-1/c+1/d)/u3)).
    + clear - FT Na Nb Nc Nd U0 U1 U2 U3. clearbody u0 u1 u2 u3. unfold hd0, hd1, hd2, hd3. generalize (e0+2*(e1+e2+e3)) (e0+2*(e2-e1-e3)) (e0+2*(e1-e2-e3)) (e0+2*(e3-e2-e1)). intros. field. repeat split; assumption.
    + rewrite Q; clear Q.
      * clear - FT P1 P2 P3 U0 NA NB NC ND. set (S := hd0 a b c d) in *. clearbody S u0. set (p1 := a*b+c*d) in *. set (p2 := a*c+b*d) in *. set (p3 := a*d+b*c) in *. clearbody p1 p2 p3. generalize (e0+2*(e1+e2+e3)). intros. field. repeat split; first [assumption|apply opp_nz; assumption].
      * repeat split; first [assumption|apply opp_nz; assumption].
      * repeat split; assumption.
      * first [assumption|apply opp_nz; assumption].
      * first [assumption|apply opp_nz; assumption].
      * first [assumption|apply opp_nz; assumption].
      * repeat split; assumption.
      * assumption.
      * unfold hd0. ring.
      * reflexivity.
      * reflexivity.
      * reflexivity.
      * reflexivity.
      * ring.
      * ring.
      * ring.
      * clear - FT Na Nb Nc Nd. field. repeat split; first [assumption|apply opp_nz; assumption].
      * clear - FT Na Nb Nc Nd. field. repeat split; first [assumption|apply opp_nz; assumption].
      * clear - FT Na Nb Nc Nd. field. repeat split; first [assumption|apply opp_nz; assumption].
      * clear - FT Na Nb Nc Nd. field. repeat split; first [assumption|apply opp_nz; assumption].
      * exact E0.
  - assert (Q := comm_0 a (- b) c (- d) (hd1 a b c d) u0 u1 u2 u3 (- (a*b+c*d)) (a*c+b*d) (- (a*d+b*c)) (1/a-1/b+1/c-1/d) (1/a+1/b+1/c+1/d) (1/a-1/b-1/c+1/d) (1/a+1/b-1/c-1/d) e0 e1 e2 e3 m).
    rewrite ?OB in Q. replace (a * (- b) * c * (- d)) with (a*b*c*d) in Q by ring.
    transitivity ((e0+2*(e1+e2+e3))*((1/a-1/b+1/c-1/d)/u0) + (e0+2*(e2-e1-e3))*((1/a+1/b+1/c+1/d)/u1) + (e0+2*(e1-e2-e3))*((1/a-1/b-1/c+1/d)/u2) + (e0+2*(e3-e2-e1))*((1/a+1/b-1/c-1/d)/u3)).
    + clear - FT Na Nb Nc Nd U0 U1 U2 U3. clearbody u0 u1 u2 u3. unfold hd0, hd1, hd2, hd3. generalize (e0+2*(e1+e2+e3)) (e0+2*(e2-e1-e3)) (e0+2*(e1-e2-e3)) (e0+2*(e3-e2-e1)). intros. field. repeat split; assumption.
    + rewrite Q; clear Q.
      * clear - FT P1 P2 P3 U0 NA NB NC ND. set (S := hd1 a b c d) in *. clearbody S u0. set (p1 := a*b+c*d) in *. set (p2 := a*c+b*d) in *. set (p3 := a*d+b*c) in *. clearbody p1 p2 p3. generalize (e0+2*(e1+e2+e3)). intros. field. repeat split; first [assumption|apply opp_nz; assumption].
      * repeat split; first [assumption|apply opp_nz; assumption].
      * repeat split; assumption.
      * first [assumption|apply opp_nz; assumption].
      * first [assumption|apply opp_nz; assumption].
      * first [assumption|apply opp_nz; assumption].
      * repeat split; assumption.
      * assumption.
      * unfold hd1. ring.
      * reflexivity.
      * reflexivity.
      * reflexivity.
      * reflexivity.
      * ring.
      * ring.
      * ring.
      * clear - FT Na Nb Nc Nd. field. repeat split; first [assumption|apply opp_nz; assumption].
      * clear - FT Na Nb Nc Nd. field. repeat split; first [assumption|apply opp_nz; assumption].
      * clear - FT Na Nb Nc Nd. field. repeat split; first [assumption|apply opp_nz; assumption].
      * clear - FT Na Nb Nc Nd. field. repeat split; first [assumption|apply opp_nz; assumption].
      * exact E0.
  - assert (Q := comm_0 a b (- c) (- d) (hd2 a b c d) u0 u1 u2 u3 (a*b+c*d) (- (a*c+b*d)) (- (a*d+b*c)) (1/a+1/b-1/c-1/d) (1/a-1/b-1/c+1/d) (1/a+1/b+1/c+1/d) (1/a-1/b+1/c-1/d) e0 e1 e2 e3 m).
    rewrite ?OB in Q. replace (a * b * (- c) * (- d)) with (a*b*c*d) in Q by ring.
    transitivity ((e0+2*(e1+e2+e3))*((1/a+1/b-1/c-1/d)/u0) + (e0+2*(e2-e1-e3))*((1/a-1/b-1/c+1/d)/u1) + (e0+2*(e1-e2-e3))*((1/a+1/b+1/c+1/d)/u2) + (e0+2*(e3-e2-e1))*((1/a-1/b+1/c-1/d)/u3)).
    + clear - FT Na Nb Nc Nd U0 U1 U2 U3. clearbody u0 u1 u2 u3. unfold hd0, hd1, hd2, hd3. generalize (e0+2*(e1+e2+e3)) (e0+2*(e2-e1-e3)) (e0+2*(e1-e2-e3)) (e0+2*(e3-e2-e1)). intros. field. repeat split; assumption.
    + rewrite Q; clear Q.
      * clear - FT P1 P2 P3 U0 NA NB NC ND. set (S := hd2 a b c d) in *. clearbody S u0. set (p1 := a*b+c*d) in *. set (p2 := a*c+b*d) in *. set (p3 := a*d+b*c) in *. clearbody p1 p2 p3. generalize (e0+2*(e1+e2+e3)). intros. field. repeat split; first [assumption|apply opp_nz; assumption].
      * repeat split; first [assumption|apply opp_nz; assumption].
      * repeat split; assumption.
      * first [assumption|apply opp_nz; assumption].
      * first [assumption|apply opp_nz; assumption].
      * first [assumption|apply opp_nz; assumption].
      * repeat split; assumption.
      * assumption.
      * unfold hd2. ring.
      * reflexivity.
      * reflexivity.
      * reflexivity.
      * reflexivity.
      * ring.
      * ring.
      * ring.
      * clear - FT Na Nb Nc Nd. field. repeat split; first [assumption|apply opp_nz; assumption].
      * clear - FT Na Nb Nc Nd. field. repeat split; first [assumption|apply opp_nz; assumption].
      * clear - FT Na Nb Nc Nd. field. repeat split; first [assumption|apply opp_nz; assumption].
      * clear - FT Na Nb Nc Nd. field. repeat split; first [assumption|apply opp_nz; assumption].
      * exact E0.
  - assert (Q := comm_0 a (- b) (- c) d (hd3 a b c d) u0 u1 u2 u3 (- (a*b+c*d)) (- (a*c+b*d)) (a*d+b*c) (1/a-1/b-1/c+1/d) (1/a+1/b-1/c-1/d) (1/a-1/b+1/c-1/d) (1/a+1/b+1/c+1/d) e0 e1 e2 e3 m).
    rewrite ?OB in Q. replace (a * (- b) * (- c) * d) with (a*b*c*d) in Q by ring.
    transitivity ((e0+2*(e1+e2+e3))*((1/a-1/b-1/c+1/d)/u0) + (e0+2*(e2-e1-e3))*((1/a+1/b-1/c-1/d)/u1) + (e0+2*(e1-e2-e3))*((1/a-1/b+1/c-1/d)/u2) + (e0+2*(e3-e2-e1))*((1/a+1/b+1/c+1/d)/u3)).
    + clear - FT Na Nb Nc Nd U0 U1 U2 U3. clearbody u0 u1 u2 u3. unfold hd0, hd1, hd2, hd3. generalize (e0+2*(e1+e2+e3)) (e0+2*(e2-e1-e3)) (e0+2*(e1-e2-e3)) (e0+2*(e3-e2-e1)). intros. field. repeat split; assumption.
    + rewrite Q; clear Q.
      * clear - FT P1 P2 P3 U0 NA NB NC ND. set (S := hd3 a b c d) in *. clearbody S u0. set (p1 := a*b+c*d) in *. set (p2 := a*c+b*d) in *. set (p3 := a*d+b*c) in *. clearbody p1 p2 p3. generalize (e0+2*(e1+e2+e3)). intros. field. repeat split; first [assumption|apply opp_nz; assumption].
      * repeat split; first [assumption|apply opp_nz; assumption].
      * repeat split; assumption.
      * first [assumption|apply opp_nz; assumption].
      * first [assumption|apply opp_nz; assumption].
      * first [assumption|apply opp_nz; assumption].
      * repeat split; assumption.
      * assumption.
      * unfold hd3. ring.
      * reflexivity.
      * reflexivity.
      * reflexivity.
      * reflexivity.
      * ring.
      * ring.
      * ring.
      * clear - FT Na Nb Nc Nd. field. repeat split; first [assumption|apply opp_nz; assumption].
      * clear - FT Na Nb Nc Nd. field. repeat split; first [assumption|apply opp_nz; assumption].
      * clear - FT Na Nb Nc Nd. field. repeat split; first [assumption|apply opp_nz; assumption].
      * clear - FT Na Nb Nc Nd. field. repeat split; first [assumption|apply opp_nz; assumption].
      * exact E0.
Qed.
(** null points *)
Definition gen a b c d : Prop := nz4 a b c d /\ nz4 (hd0 (a*a) (b*b) (c*c) (d*d)) (hd1 (a*a) (b*b) (c*c) (d*d)) (hd2 (a*a) (b*b) (c*c) (d*d)) (hd3 (a*a) (b*b) (c*c) (d*d)) /\
  (a*b+c*d <> 0 /\ a*c+b*d <> 0 /\ a*d+b*c <> 0) /\ (a*b-c*d <> 0 /\ a*c-b*d <> 0 /\ a*d-b*c <> 0).
Lemma gen_dist a b c d : gen a b c d -> dist (a*a) (b*b) (c*c) (d*d).
Proof.
  intros (_ & _ & (P1 & P2 & P3) & M1 & M2 & M3). split; [|split].
  - replace (a*a*(b*b)-c*c*(d*d)) with ((a*b+c*d)*(a*b-c*d)) by ring. apply mul_nz; assumption.
  - replace (a*a*(c*c)-b*b*(d*d)) with ((a*c+b*d)*(a*c-b*d)) by ring. apply mul_nz; assumption.
  - replace (a*a*(d*d)-b*b*(c*c)) with ((a*d+b*c)*(a*d-b*c)) by ring. apply mul_nz; assumption.
Qed.
Lemma gen_dist_h a b c d : gen a b c d -> dist (hd0 (a*a) (b*b) (c*c) (d*d)) (hd1 (a*a) (b*b) (c*c) (d*d)) (hd2 (a*a) (b*b) (c*c) (d*d)) (hd3 (a*a) (b*b) (c*c) (d*d)).
Proof.
  intros G. destruct (gen_dist _ _ _ _ G) as (M1 & M2 & M3). unfold hd0, hd1, hd2, hd3. split; [|split].
  - match goal with |- ?e <> _ => replace e with (4 * (a*a*(c*c)-b*b*(d*d))) by ring end. apply mul_nz; [exact four_nz|exact M2].
  - match goal with |- ?e <> _ => replace e with (4 * (a*a*(b*b)-c*c*(d*d))) by ring end. apply mul_nz; [exact four_nz|exact M1].
  - match goal with |- ?e <> _ => replace e with (4 * (a*a*(d*d)-b*b*(c*c))) by ring end. apply mul_nz; [exact four_nz|exact M3].
Qed.
Lemma gen_sq e a b c d A B C D : gen a b c d -> hd0 (a*a) (b*b) (c*c) (d*d) = e*(A*A) -> hd1 (a*a) (b*b) (c*c) (d*d) = e*(B*B) -> hd2 (a*a) (b*b) (c*c) (d*d) = e*(C*C) -> hd3 (a*a) (b*b) (c*c) (d*d) = e*(D*D) -> gen A B C D.
Proof.
  intros G H0 H1 H2 H3. destruct (gen_dist_h _ _ _ _ G) as (M1 & M2 & M3). destruct G as ((Na & Nb & Nc & Nd) & (U0 & U1 & U2 & U3) & _).
  rewrite H0, H1, H2, H3 in *. split; [|split; [|split]].
  - repeat split; eapply mul_nz_l, mul_nz_r; eassumption.
  - assert (X : forall y z x, e * y = 4 * (x*x) -> x <> 0 -> z = y -> z <> 0).
    { intros y z x E N ->. apply (mul_nz_r e). rewrite E. apply mul_nz; [exact four_nz|apply mul_nz; exact N]. }
    unfold hd0, hd1, hd2, hd3 in *. repeat split.
    + apply (X (A*A+B*B+C*C+D*D) _ a); [transitivity (e*(A*A)+e*(B*B)+e*(C*C)+e*(D*D)); [ring|rewrite <- H0, <- H1, <- H2, <- H3; ring]|exact Na|ring].
    + apply (X (A*A-B*B+C*C-D*D) _ b); [transitivity (e*(A*A)-e*(B*B)+e*(C*C)-e*(D*D)); [ring|rewrite <- H0, <- H1, <- H2, <- H3; ring]|exact Nb|ring].
    + apply (X (A*A+B*B-C*C-D*D) _ c); [transitivity (e*(A*A)+e*(B*B)-e*(C*C)-e*(D*D)); [ring|rewrite <- H0, <- H1, <- H2, <- H3; ring]|exact Nc|ring].
    + apply (X (A*A-B*B-C*C+D*D) _ d); [transitivity (e*(A*A)-e*(B*B)-e*(C*C)+e*(D*D)); [ring|rewrite <- H0, <- H1, <- H2, <- H3; ring]|exact Nd|ring].
  - split; [|split].
    + apply (mul_nz_l _ (e*e*(A*B-C*D))). replace ((A*B+C*D)*(e*e*(A*B-C*D))) with (e*(A*A)*(e*(B*B))-e*(C*C)*(e*(D*D))) by ring. exact M1.
    + apply (mul_nz_l _ (e*e*(A*C-B*D))). replace ((A*C+B*D)*(e*e*(A*C-B*D))) with (e*(A*A)*(e*(C*C))-e*(B*B)*(e*(D*D))) by ring. exact M2.
    + apply (mul_nz_l _ (e*e*(A*D-B*C))). replace ((A*D+B*C)*(e*e*(A*D-B*C))) with (e*(A*A)*(e*(D*D))-e*(B*B)*(e*(C*C))) by ring. exact M3.
  - split; [|split].
    + apply (mul_nz_r (e*e*(A*B+C*D))). replace (e*e*(A*B+C*D)*(A*B-C*D)) with (e*(A*A)*(e*(B*B))-e*(C*C)*(e*(D*D))) by ring. exact M1.
    + apply (mul_nz_r (e*e*(A*C+B*D))). replace (e*e*(A*C+B*D)*(A*C-B*D)) with (e*(A*A)*(e*(C*C))-e*(B*B)*(e*(D*D))) by ring. exact M2.
    + apply (mul_nz_r (e*e*(A*D+B*C))). replace (e*e*(A*D+B*C)*(A*D-B*C)) with (e*(A*A)*(e*(D*D))-e*(B*B)*(e*(C*C))) by ring. exact M3.
Qed.
Lemma gen_had a b c d : gen a b c d -> nz4 (hd0 a b c d) (hd1 a b c d) (hd2 a b c d) (hd3 a b c d) -> gen (hd0 a b c d) (hd1 a b c d) (hd2 a b c d) (hd3 a b c d).
Proof.
  intros (_ & (U0 & U1 & U2 & U3) & (P1 & P2 & P3) & M1 & M2 & M3) N. split; [exact N|]. clear N.
  unfold hd0, hd1, hd2, hd3 in *. split; [|split; [|]]; repeat split;
  match goal with |- ?e <> _ => first
    [ replace e with (4 * (a*a+b*b+c*c+d*d)) by ring; apply mul_nz; [exact four_nz|assumption]
    | replace e with (4 * (2 * (a*b+c*d))) by ring; apply mul_nz; [exact four_nz|apply mul_nz; [exact two_nz|assumption]]
    | replace e with (4 * (2 * (a*c+b*d))) by ring; apply mul_nz; [exact four_nz|apply mul_nz; [exact two_nz|assumption]]
    | replace e with (4 * (2 * (a*d+b*c))) by ring; apply mul_nz; [exact four_nz|apply mul_nz; [exact two_nz|assumption]]
    | replace e with (2 * (a*a-b*b+c*c-d*d)) by ring; apply mul_nz; [exact two_nz|assumption]
    | replace e with (2 * (a*a+b*b-c*c-d*d)) by ring; apply mul_nz; [exact two_nz|assumption]
    | replace e with (2 * (a*a-b*b-c*c+d*d)) by ring; apply mul_nz; [exact two_nz|assumption]
    | replace e with (4 * (a*b-c*d)) by ring; apply mul_nz; [exact four_nz|assumption]
    | replace e with (4 * (a*c-b*d)) by ring; apply mul_nz; [exact four_nz|assumption]
    | replace e with (4 * (a*d-b*c)) by ring; apply mul_nz; [exact four_nz|assumption] ] end.
Qed.
(** the isogeny to the dual coordinates *)
Lemma Lk_zero a b c d x y z t : nz4 a b c d -> dist a b c d -> nz4 (hd0 a b c d) (hd1 a b c d) (hd2 a b c d) (hd3 a b c d) -> dist (hd0 a b c d) (hd1 a b c d) (hd2 a b c d) (hd3 a b c d) ->
  Qk a b c d x y z t * Qk a b c d x y z t * (a*b*c*d) = Gk a b c d * Gk a b c d * (x*y*z*t) ->
  Lk (hd0 a b c d) (hd1 a b c d) (hd2 a b c d) (hd3 a b c d) (hd0 x y z t) (hd1 x y z t) (hd2 x y z t) (hd3 x y z t) = 0.
Proof.
  intros N D1 NA DA H. apply (cancel (a*b*c*d)); [destruct N as (? & ? & ? & ?); repeat apply mul_nz; assumption|].
  unfold hd0, hd1, hd2, hd3 in *. rewrite (Lk_id a b c d x y z t N NA D1 DA), H. ring.
Qed.
Lemma sub_add x y : x + y = 0 -> x = - y. Proof. intros H. transitivity (x + y - y); [ring|rewrite H; ring]. Qed.
Lemma qr_Lk a b c d x y z t : gen a b c d -> qr a b c d x y z t = 0 ->
  Lk (hd0 (a*a) (b*b) (c*c) (d*d)) (hd1 (a*a) (b*b) (c*c) (d*d)) (hd2 (a*a) (b*b) (c*c) (d*d)) (hd3 (a*a) (b*b) (c*c) (d*d)) (hd0 (x*x) (y*y) (z*z) (t*t)) (hd1 (x*x) (y*y) (z*z) (t*t)) (hd2 (x*x) (y*y) (z*z) (t*t)) (hd3 (x*x) (y*y) (z*z) (t*t)) = 0.
Proof.
  intros G H. pose proof (gen_dist _ _ _ _ G) as D1. pose proof (gen_dist_h _ _ _ _ G) as D2. destruct G as ((Na & Nb & Nc & Nd) & NU & _).
  apply Lk_zero; [repeat split; apply mul_nz; assumption|exact D1|exact NU|exact D2|].
  unfold qr in H. apply sub_add in H. rewrite H. generalize (Gk (a*a) (b*b) (c*c) (d*d)). intros g. field. repeat split; assumption.
Qed.
Lemma Lk_scale q a b c d x y z t : q <> 0 -> nz4 a b c d -> dist a b c d -> Lk (q*a) (q*b) (q*c) (q*d) x y z t = Lk a b c d x y z t / (q * q).
Proof.
  intros Nq (Na & Nb & Nc & Nd) (D1 & D2 & D3). assert (HF : forall u v w r, u*v-w*r <> 0 -> Fk (q*u) (q*v) (q*w) (q*r) = Fk u v w r).
  { intros u v w r Hd. unfold Fk. assert (Hd' : q*u*(q*v)-q*w*(q*r) <> 0) by (replace (q*u*(q*v)-q*w*(q*r)) with (q*(q*(u*v-w*r))) by ring; repeat apply mul_nz; assumption). field. repeat split; assumption. }
  unfold Lk, Qk, Gk, s4. rewrite !HF by assumption. generalize (Fk a b c d) (Fk a c b d) (Fk a d b c). intros f1 f2 f3. field. repeat split; assumption.
Qed.
Lemma qr_image e a b c d A B C D x y z t : gen a b c d -> hd0 (a*a) (b*b) (c*c) (d*d) = e*(A*A) -> hd1 (a*a) (b*b) (c*c) (d*d) = e*(B*B) -> hd2 (a*a) (b*b) (c*c) (d*d) = e*(C*C) -> hd3 (a*a) (b*b) (c*c) (d*d) = e*(D*D) ->
  qr a b c d x y z t = 0 -> qr A B C D (hd0 (x*x) (y*y) (z*z) (t*t) / A) (hd1 (x*x) (y*y) (z*z) (t*t) / B) (hd2 (x*x) (y*y) (z*z) (t*t) / C) (hd3 (x*x) (y*y) (z*z) (t*t) / D) = 0.
Proof.
  intros G H0 H1 H2 H3 H. pose proof (qr_Lk _ _ _ _ _ _ _ _ G H) as HL. pose proof (gen_sq _ _ _ _ _ _ _ _ _ G H0 H1 H2 H3) as GA. pose proof (gen_dist _ _ _ _ GA) as DA. destruct GA as ((NA & NB & NC & ND) & _).
  assert (Ne : e <> 0) by (destruct G as (_ & (U0 & _) & _); rewrite H0 in U0; exact (mul_nz_l _ _ U0)).
  rewrite H0, H1, H2, H3, Lk_scale in HL; [|exact Ne|repeat split; apply mul_nz; assumption|exact DA]. set (X := hd0 (x*x) (y*y) (z*z) (t*t)) in *. set (Y := hd1 (x*x) (y*y) (z*z) (t*t)) in *. set (Z := hd2 (x*x) (y*y) (z*z) (t*t)) in *. set (T := hd3 (x*x) (y*y) (z*z) (t*t)) in *. clearbody X Y Z T.
  assert (HL' : Lk (A*A) (B*B) (C*C) (D*D) X Y Z T = 0) by (transitivity (e*e*(Lk (A*A) (B*B) (C*C) (D*D) X Y Z T / (e*e))); [field; exact Ne|rewrite HL; ring]).
  unfold Lk in HL'. unfold qr. rewrite <- HL'.
  generalize (Gk (A*A) (B*B) (C*C) (D*D)). intros g. f_equal; [f_equal; field; assumption|field; repeat split; assumption].
Qed.
(** doubling *)
Lemma qr_double a b c d x y z t : gen a b c d -> qr a b c d x y z t = 0 ->
  let w0 := hd0 (x*x) (y*y) (z*z) (t*t) * hd0 (x*x) (y*y) (z*z) (t*t) / hd0 (a*a) (b*b) (c*c) (d*d) in let w1 := hd1 (x*x) (y*y) (z*z) (t*t) * hd1 (x*x) (y*y) (z*z) (t*t) / hd1 (a*a) (b*b) (c*c) (d*d) in
  let w2 := hd2 (x*x) (y*y) (z*z) (t*t) * hd2 (x*x) (y*y) (z*z) (t*t) / hd2 (a*a) (b*b) (c*c) (d*d) in let w3 := hd3 (x*x) (y*y) (z*z) (t*t) * hd3 (x*x) (y*y) (z*z) (t*t) / hd3 (a*a) (b*b) (c*c) (d*d) in
  qr a b c d (hd0 w0 w1 w2 w3 / a) (hd1 w0 w1 w2 w3 / b) (hd2 w0 w1 w2 w3 / c) (hd3 w0 w1 w2 w3 / d) = 0.
Proof.
  intros G H w0 w1 w2 w3. pose proof (qr_Lk _ _ _ _ _ _ _ _ G H) as HL. pose proof (gen_dist _ _ _ _ G) as D1. pose proof (gen_dist_h _ _ _ _ G) as D2. destruct G as ((Na & Nb & Nc & Nd) & NU & _).
  assert (NA : nz4 (a*a) (b*b) (c*c) (d*d)) by (repeat split; apply mul_nz; assumption).
  assert (EH : forall u v w r : K, hd0 (hd0 u v w r) (hd1 u v w r) (hd2 u v w r) (hd3 u v w r) = 4*u /\ hd1 (hd0 u v w r) (hd1 u v w r) (hd2 u v w r) (hd3 u v w r) = 4*v /\
    hd2 (hd0 u v w r) (hd1 u v w r) (hd2 u v w r) (hd3 u v w r) = 4*w /\ hd3 (hd0 u v w r) (hd1 u v w r) (hd2 u v w r) (hd3 u v w r) = 4*r) by (intros; unfold hd0, hd1, hd2, hd3; repeat split; ring).
  destruct (EH (a*a) (b*b) (c*c) (d*d)) as (E0 & E1 & E2 & E3).
  set (u0 := hd0 (a*a) (b*b) (c*c) (d*d)) in *. set (u1 := hd1 (a*a) (b*b) (c*c) (d*d)) in *. set (u2 := hd2 (a*a) (b*b) (c*c) (d*d)) in *. set (u3 := hd3 (a*a) (b*b) (c*c) (d*d)) in *.
  assert (HW : Lk (4*(a*a)) (4*(b*b)) (4*(c*c)) (4*(d*d)) (hd0 w0 w1 w2 w3) (hd1 w0 w1 w2 w3) (hd2 w0 w1 w2 w3) (hd3 w0 w1 w2 w3) = 0).
  { rewrite <- E0, <- E1, <- E2, <- E3. apply Lk_zero; [exact NU|exact D2| | |].
    - rewrite E0, E1, E2, E3. destruct NA as (? & ? & ? & ?). repeat split; (apply mul_nz; [exact four_nz|assumption]).
    - rewrite E0, E1, E2, E3. destruct D1 as (M1 & M2 & M3). repeat split; match goal with |- 4 * ?p * (4 * ?q) - 4 * ?r * (4 * ?s) <> _ => replace (4 * p * (4 * q) - 4 * r * (4 * s)) with (4 * (4 * (p * q - r * s))) by ring end; repeat apply mul_nz; try exact four_nz; assumption.
    - unfold Lk in HL. apply sub_add in HL. fold w0 w1 w2 w3 in HL. rewrite HL. unfold w0, w1, w2, w3. destruct NU as (? & ? & ? & ?).
      generalize (Gk u0 u1 u2 u3). generalize (hd0 (x*x) (y*y) (z*z) (t*t)) (hd1 (x*x) (y*y) (z*z) (t*t)) (hd2 (x*x) (y*y) (z*z) (t*t)) (hd3 (x*x) (y*y) (z*z) (t*t)). clearbody u0 u1 u2 u3. intros X Y Z T g. field. repeat split; assumption. }
  rewrite Lk_scale in HW by (exact four_nz || assumption).
  assert (HW' : Lk (a*a) (b*b) (c*c) (d*d) (hd0 w0 w1 w2 w3) (hd1 w0 w1 w2 w3) (hd2 w0 w1 w2 w3) (hd3 w0 w1 w2 w3) = 0).
  { set (l := Lk (a*a) _ _ _ _ _ _ _) in *. clearbody l. pose proof four_nz as N4. clear - FT HW N4. set (q := 4) in *. clearbody q. transitivity (l / (q*q) * (q*q)); [field; exact N4|rewrite HW; ring]. }
  unfold qr. rewrite <- HW'. unfold Lk. generalize (hd0 w0 w1 w2 w3) (hd1 w0 w1 w2 w3) (hd2 w0 w1 w2 w3) (hd3 w0 w1 w2 w3). intros X Y Z T.
  generalize (Gk (a*a) (b*b) (c*c) (d*d)). intros g. f_equal; [f_equal; field; assumption|field; repeat split; assumption].
Qed.
End K.
