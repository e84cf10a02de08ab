(** The expansion in physical variables against the kernels. *)
From Coq Require Import Reals ZArith Arith Bool Lra Lia String.
From Coquelicot Require Import Coquelicot.
From Coq Require Import List.
From Verif.Model Require Import Base Util Num Poly FT SVE Basis Kernel.
From Verif.Spec Require Import SPoly SFT SSVE SBasis SKernel.
From Verif.Proofs Require Import BasisInit BasisProps BasisOps BasisPhys KernelProps.
Import ListNotations.
Open Scope R_scope.

Section BK.
Variable compute : kern -> option R -> res sve_result.
Variable b : basis.
Hypothesis Hb : built compute b.

Lemma built_pos : 0 < bbeta b /\ 0 < bwmax b.
Proof.
  destruct (built_inv compute b Hb) as (lam & q & f & f' & H1 & H2 & _). auto.
Qed.

Lemma expansion_logistic : forall t w (f g F G : nat -> R -> R),
  kyp (bkernel b) = 0%Z ->
  0 <= t <= bbeta b -> - bwmax b <= w <= bwmax b ->
  (forall l, (l < bsize b)%nat -> represents (su (bsve b)) l (f l) /\ represents (sv (bsve b)) l (g l) /\
                                  represents (bu b) l (F l) /\ represents (bv b) l (G l)) ->
  let lam := bbeta b * bwmax b in let x := 2 * t / bbeta b - 1 in let y := w / bwmax b in
  sumn (bsize b) (fun l => nth l (bs b) 0 * F l t * G l w) - exp (- t * w) / (1 + exp (- bbeta b * w)) =
  sumn (bsize b) (fun l => sval (bsve b) l * f l x * g l y) - logistic_formula lam x y.
Proof.
  intros t w f g F G Hk Ht Hw H lam x y. destruct built_pos as [P1 P2].
  rewrite (expansion compute b Hb t w f g F G) by auto. rewrite Hk. cbn [Z.opp powerRZ].
  unfold lam, x, y. rewrite logistic_physical by auto. fold x y. ring.
Qed.

Lemma expansion_bose : forall t w (f g F G : nat -> R -> R),
  kyp (bkernel b) = 1%Z ->
  0 <= t <= bbeta b -> - bwmax b <= w <= bwmax b ->
  (forall l, (l < bsize b)%nat -> represents (su (bsve b)) l (f l) /\ represents (sv (bsve b)) l (g l) /\
                                  represents (bu b) l (F l) /\ represents (bv b) l (G l)) ->
  let lam := bbeta b * bwmax b in let x := 2 * t / bbeta b - 1 in let y := w / bwmax b in
  sumn (bsize b) (fun l => nth l (bs b) 0 * F l t * G l w) - / (bwmax b) ^ 2 * (w * exp (- t * w) / (1 - exp (- bbeta b * w))) =
  / bwmax b * (sumn (bsize b) (fun l => sval (bsve b) l * f l x * g l y) - bose_formula lam x y).
Proof.
  intros t w f g F G Hk Ht Hw H lam x y. destruct built_pos as [P1 P2].
  rewrite (expansion compute b Hb t w f g F G) by auto. rewrite Hk.
  rewrite <- (bose_physical (bbeta b) (bwmax b)) by auto.
  fold x y lam. change (powerRZ (bwmax b) (- (1))) with (/ (bwmax b ^ Pos.to_nat 1)). change (Pos.to_nat 1) with 1%nat.
  field. lra.
Qed.
End BK.
