(** cos and sin of 1/2, for the witness of C155. *)

From Coq Require Import ZArith Reals List Lia Lra.
From Flocq Require Import Core BinarySingleNaN.
From Verif Require Import Outcome Arith SpecPlace64 SpecAngle64 NearestB64 MapperWitness2 PropAngle64.
Local Open Scope R_scope.

Lemma fact_R (n : nat) : INR (fact (S n)) = IZR (Z.of_nat (S n)) * INR (fact n).
Proof. rewrite fact_simpl, mult_INR, INR_IZR_INZ. reflexivity. Qed.

Lemma cos_half : Rabs (7904560997432656 / 9007199254740992 - cos (1 / 2)) <= bpow radix2 (-52).
Proof.
  pose proof PI2_3_2 as Pi. destruct (pre_cos_bound (1 / 2) 3 ltac:(lra) ltac:(lra)) as [L U].
  unfold cos_approx, cos_term in L, U. cbn [sum_f_R0 Nat.mul Nat.add] in L, U.
  repeat rewrite fact_R in L; repeat rewrite fact_R in U. change (INR (fact 0)) with 1 in L, U. cbn [Z.of_nat Pos.of_succ_nat Pos.succ] in L, U.
  cbn [pow] in L, U.
  change (bpow radix2 (-52)) with (/ 4503599627370496). set (c := cos (1 / 2)) in *. apply Rabs_le. clearbody c. clear Pi. field_simplify in L. field_simplify in U. lra.
Qed.

Lemma sin_half : Rabs (8636562708039152 / 18014398509481984 - sin (1 / 2)) <= bpow radix2 (-52).
Proof.
  pose proof PI2_3_2 as Pi. destruct (pre_sin_bound (1 / 2) 3 ltac:(lra) ltac:(lra)) as [L U].
  unfold sin_approx, sin_term in L, U. cbn [sum_f_R0 Nat.mul Nat.add] in L, U.
  repeat rewrite fact_R in L; repeat rewrite fact_R in U. change (INR (fact 0)) with 1 in L, U. cbn [Z.of_nat Pos.of_succ_nat Pos.succ] in L, U.
  cbn [pow] in L, U.
  change (bpow radix2 (-52)) with (/ 4503599627370496). set (c := sin (1 / 2)) in *. apply Rabs_le. clearbody c. clear Pi. field_simplify in L. field_simplify in U. lra.
Qed.
