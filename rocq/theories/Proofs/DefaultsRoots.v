From Coq Require Import Reals Lra.
From Coquelicot Require Import Coquelicot.
From Coq Require Import List ZArith Bool Lia Permutation Sorted Arith.
From Flocq Require Import Core.
From Verif.Model Require Import Base Num Roots Poly PolyIEEE IEEE DefaultsIEEE.
From Verif.Spec Require Import SRoots SPoly SPolyIEEE SKernelIEEE SDefaultsIEEE.
From Verif.Proofs Require Import BaseFacts RootsFacts RootsCont IEEEFacts RootsIEEE PolyRound ComputeMerged KernelRoundCall DefaultsRound.
Import ListNotations.
Open Scope R_scope.

Lemma zero_between (f : R -> R) a b : (forall x, continuous f x) -> a <= b -> f a * f b <= 0 -> exists z, a <= z <= b /\ f z = 0.
Proof.
  intros C Hab H. destruct (Req_dec (f a) 0) as [E|Ea]; [exists a; split; [lra|exact E]|]. destruct (Req_dec (f b) 0) as [E|Eb]; [exists b; split; [lra|exact E]|].
  assert (L : a < b) by (destruct Hab as [|<-]; [assumption|nra]).
  assert (Cp : forall x, continuity_pt f x) by (intros x; apply continuity_pt_filterlim; apply C).
  destruct (Rle_or_lt (f a) 0) as [N|N].
  - destruct (Ranalysis5.IVT_interv f a b) as (z & Hz & E); [intros; apply Cp|exact L|lra|nra|]. exists z. split; [lra|exact E].
  - destruct (Ranalysis5.IVT_interv (fun x => - f x) a b) as (z & Hz & E); [intros; apply continuity_pt_opp, Cp|exact L|lra|nra|]. exists z. split; [lra|lra].
Qed.

Lemma sign_of_differ v w m n : sign_of (v, m) <> sign_of (w, n) -> v * w <= 0.
Proof.
  unfold sign_of. cbn. destruct (Reqb v 0) eqn:E1; [apply Reqb_true in E1; rewrite E1; lra|]. destruct (Reqb w 0) eqn:E2; [apply Reqb_true in E2; rewrite E2; lra|].
  destruct (Rltb v 0) eqn:A, (Rltb w 0) eqn:B; try congruence; intros _; rewrite ?Rltb_true, ?Rltb_false in *; nra.
Qed.

Lemma same_sign e p v : e < Rabs p -> Rabs (v - p) <= e -> 0 < p * v.
Proof. intros H1 H2. apply Rabs_le_between in H2. unfold Rabs in H1. destruct (Rcase_abs p); nra. Qed.
Lemma opposite p q v w : 0 < p * v -> 0 < q * w -> v * w <= 0 -> p * q <= 0.
Proof. intros H1 H2 H3. destruct (Rle_or_lt (p * q) 0) as [L|L]; [exact L|]. exfalso. assert (0 < (p * v) * (q * w)) by (apply Rmult_lt_0_compat; assumption). nra. Qed.

Notation u64 := (/ 2 ^ 53).
Lemma u64_range : 0 < u64 <= / 10000.
Proof. split; [apply Rinv_0_lt_compat; lra|]. apply Rinv_le_contravar; [lra|]. cbn. lra. Qed.
Lemma eta64_nonneg : 0 <= eta64.
Proof. apply bpow_ge_0. Qed.

Section Search.
Context (old : bool) (nz : R -> bool) (p : spoly) (Hp : searchable u64 eta64 p).
Notation g := (sgeom p).
Notation F := (value_at old rnd64 p).

Lemma value_call rd x : -1 <= x <= 1 -> scall_rd old rd p x = Ok (value_at old rd p x).
Proof.
  intros Hx. pose proof Hp as (Gn & E1 & E2 & _ & Hl). unfold scall_rd. rewrite (split_in u64 eta64); [|exact Gn|rewrite E1, E2; exact Hx]. cbn [bind fst snd].
  destruct (glen g) eqn:E; [lia|]. reflexivity.
Qed.

Lemma value_close : accurate u64 eta64 g -> forall x i, in_segment g i x -> Rabs (F x - seg_fun g (scol p) i x) <= call_error u64 eta64 g (scol p) i.
Proof.
  intros A x i Hi. pose proof Hp as (Gn & E1 & E2 & _ & Hl). pose proof Hi as (I1 & _). destruct (A i I1) as (A1 & A2).
  destruct (scall_near _ _ _ old p x i rounding_double u64_range eta64_nonneg Gn Hl Hi A1 A2) as (y & E & H).
  destruct Hi as (_ & Hi & Hi'). destruct (seg_unique _ _ _ _ _ Gn I1 Hi Hi') as (X & _). rewrite E1, E2 in X. rewrite (value_call rnd64 x X) in E. injection E as ->. exact H.
Qed.

Lemma flip_zero a b i m n : accurate u64 eta64 g -> (i < gnseg g)%nat -> knot g i <= a -> a < b -> b <= knot g (S i) ->
  sign_of (F a, m) <> sign_of (F b, n) -> exists z, a <= z <= b /\ (small_at u64 eta64 p z \/ crosses_at p z).
Proof.
  intros A Hi Ha Hab Hb Hs. apply sign_of_differ in Hs. pose proof (value_close A) as V. pose proof Hp as ((_ & L & S & _) & _ & _ & _ & _).
  assert (Sa : in_segment g i a) by (split; [exact Hi|]; split; [exact Ha|left; lra]).
  pose proof (V a i Sa) as Va. destruct (Rle_or_lt (Rabs (seg_fun g (scol p) i a)) (call_error u64 eta64 g (scol p) i)) as [Q|Qa]; [exists a; split; [lra|left; exists i; auto]|].
  pose proof (same_sign _ _ _ Qa Va) as Pa.
  assert (Zero : forall z, in_segment g i z -> seg_fun g (scol p) i z = 0 -> small_at u64 eta64 p z).
  { intros z Sz Ez. exists i. split; [exact Sz|]. rewrite Ez, Rabs_R0. eapply Rle_trans; [apply Rabs_pos|exact Va]. }
  assert (B : in_segment g i b \/ (Datatypes.S i < gnseg g /\ b = knot g (Datatypes.S i))%nat).
  { destruct (Req_dec b (knot g (Datatypes.S i))) as [E|E].
    - destruct (Nat.eq_dec (Datatypes.S i) (gnseg g)) as [En|En]; [left; split; [exact Hi|]; split; [lra|]; right; split; [exact En|]; rewrite E; unfold knot, gxmax; rewrite En; reflexivity|right; split; [lia|exact E]].
    - left. split; [exact Hi|]. split; [lra|left; lra]. }
  destruct B as [Sb|(Hs2 & Eb)].
  - pose proof (V b i Sb) as Vb. destruct (Rle_or_lt (Rabs (seg_fun g (scol p) i b)) (call_error u64 eta64 g (scol p) i)) as [Q|Qb]; [exists b; split; [lra|left; exists i; auto]|].
    pose proof (same_sign _ _ _ Qb Vb) as Pb. pose proof (opposite _ _ _ _ Pa Pb Hs) as O.
    destruct (zero_between (seg_fun g (scol p) i) a b (seg_fun_cont _ _ _) (Rlt_le _ _ Hab) O) as (z & Hz & Ez). exists z. split; [exact Hz|]. left. apply Zero; [|exact Ez].
    split; [exact Hi|]. split; [lra|]. destruct Sb as (_ & _ & [Sb|(Sb & Eb)]); [left; lra|]. destruct (Req_dec z b) as [->|]; [right; auto|left]. unfold gxmax in Eb. unfold knot. rewrite Sb. lra.
  - assert (Sb : in_segment g (Datatypes.S i) b). { split; [exact Hs2|]. split; [lra|]. left. rewrite Eb. apply sorted_nth_lt; [exact S|lia]. }
    pose proof (V b _ Sb) as Vb. destruct (Rle_or_lt (Rabs (seg_fun g (scol p) (Datatypes.S i) b)) (call_error u64 eta64 g (scol p) (Datatypes.S i))) as [Q|Qb]; [exists b; split; [lra|left; exists (Datatypes.S i); auto]|].
    pose proof (same_sign _ _ _ Qb Vb) as Pb. pose proof (opposite _ _ _ _ Pa Pb Hs) as O.
    destruct (Rle_or_lt (seg_fun g (scol p) i a * seg_fun g (scol p) i b) 0) as [Z|Z].
    + destruct (zero_between (seg_fun g (scol p) i) a b (seg_fun_cont _ _ _) (Rlt_le _ _ Hab) Z) as (z & Hz & Ez). exists z. split; [exact Hz|]. destruct (Req_dec z b) as [->|Nz].
      * right. exists i. split; [exact Hs2|]. split; [exact Eb|]. rewrite Ez. lra.
      * left. apply Zero; [|exact Ez]. split; [exact Hi|]. split; [lra|left; lra].
    + exists b. split; [lra|]. right. exists i. split; [exact Hs2|]. split; [exact Eb|].
      destruct (Rle_or_lt (seg_fun g (scol p) i b * seg_fun g (scol p) (Datatypes.S i) b) 0) as [L0|L0]; [exact L0|]. exfalso.
      assert (0 < (seg_fun g (scol p) i a * seg_fun g (scol p) i b) * (seg_fun g (scol p) i b * seg_fun g (scol p) (Datatypes.S i) b)) by (apply Rmult_lt_0_compat; assumption).
      assert (0 <= seg_fun g (scol p) i b * seg_fun g (scol p) i b) by apply Rle_0_sqr. nra.
Qed.

Notation G := (refine_grid_rd rnd64 (roots_knots_rd rnd64 p) 2).
Notation run := (fun fuel => find_all_cont rnd64 sign_of (fun v => Reqb (fst v) 0) fuel (fun x => (F x, nz x)) G).

Lemma halved_adj l a b : adjacent l a b -> exists m, adjacent (halved l) a m /\ adjacent (halved l) m b.
Proof.
  intros (l1 & l2 & ->). exists (rnd64 (step_rd rnd64 a b 2 + a)). induction l1 as [|c l1 (I1 & I2)].
  - cbn [app]. rewrite halved_cons. destruct l2 as [|d l2].
    + split; [exists [], [b]; reflexivity|exists [a], []; reflexivity].
    + rewrite halved_cons. split; [eexists [], _; reflexivity|eexists [a], _; reflexivity].
  - destruct l1 as [|d l1]; cbn [app] in *; rewrite halved_cons; split.
    + destruct I1 as (k1 & k2 & E). rewrite E. eexists (_ :: _ :: k1), k2. reflexivity.
    + destruct I2 as (k1 & k2 & E). rewrite E. eexists (_ :: _ :: k1), k2. reflexivity.
    + destruct I1 as (k1 & k2 & E). rewrite E. eexists (_ :: _ :: k1), k2. reflexivity.
    + destruct I2 as (k1 & k2 & E). rewrite E. eexists (_ :: _ :: k1), k2. reflexivity.
Qed.

Lemma sign_of_flip v w m n : v * w < 0 -> sign_of (v, m) <> sign_of (w, n).
Proof.
  intros H. unfold sign_of. cbn. assert (v <> 0 /\ w <> 0) as (A & B) by (split; intros ->; lra). apply Reqb_false in A, B. rewrite A, B.
  destruct (Rltb v 0) eqn:E1, (Rltb w 0) eqn:E2; try congruence; rewrite ?Rltb_true, ?Rltb_false in *; nra.
Qed.

Lemma search : exists rs, ends_with run rs /\ StronglySorted Rle rs /\ Forall is_double rs /\ Forall (fun x => from p <= x <= 1) rs /\
  (forall x, In x G -> F x = 0 -> In x rs) /\
  (forall a b, adjacent (roots_knots_rd rnd64 p) a b -> F a * F b < 0 -> exists r, In r rs /\ a <= r <= b) /\
  (accurate u64 eta64 g -> forall r, In r rs -> zero_near u64 eta64 eps64 p r).
Proof.
  destruct (grid_ok _ _ p Hp) as (G1 & G2 & G3 & G4 & G5 & G6 & G7). destruct (knots_ok _ _ p Hp) as (K1 & K2 & K3 & K4 & _).
  destruct (find_all_flip sign_of (fun v => Reqb (fst v) 0) (fun x => (F x, nz x)) G G1 G2) as (rs & R1 & R2 & R3 & R4 & R5 & R6).
  { rewrite G7. change 1 with (bpow radix2 0). apply bpow_le. lia. }
  exists rs. split; [exact R1|]. split; [exact R2|]. split; [exact R3|]. rewrite Forall_forall in G3. split; [|split; [|split]].
  - apply Forall_forall. intros r Hr. destruct (R6 r Hr) as [(H & _)|(a & b & H & _ & H2 & _)]; [apply G3; exact H|]. destruct (adjacent_in _ _ _ H) as (Ia & Ib). pose proof (G3 a Ia). pose proof (G3 b Ib). lra.
  - intros x Hx E. apply R4; [exact Hx|]. apply Reqb_true. exact E.
  - intros a b Hab Hf. assert (Ne : roots_knots_rd rnd64 p <> []) by (intros E; rewrite E in K4; exact K4). destruct (halved_adj _ _ _ Hab) as (m & H1 & H2). rewrite <- (refine_two _ K2 Ne) in H1, H2.
    pose proof (adjacent_le _ _ _ G1 H1) as L1. pose proof (adjacent_le _ _ _ G1 H2) as L2. destruct (Req_dec (F m) 0) as [E|E].
    + exists m. split; [apply R4; [apply (adjacent_in _ _ _ H1)|apply Reqb_true; exact E]|lra].
    + assert (Na : F a <> 0) by (intros E'; rewrite E' in Hf; lra). assert (Nb : F b <> 0) by (intros E'; rewrite E' in Hf; lra).
      assert (C : F a * F m < 0 \/ F m * F b < 0).
      { destruct (Rlt_or_le (F a * F m) 0) as [L|L]; [left; exact L|right]. assert (0 < F a * F m) by (destruct L as [L|L]; [exact L|symmetry in L; apply Rmult_integral in L; tauto]).
        destruct (Rlt_or_le (F m * F b) 0) as [L'|L']; [exact L'|]. exfalso. assert (0 < F m * F m) by (apply Rsqr_pos_lt; exact E). assert (0 <= (F a * F m) * (F m * F b)) by (apply Rmult_le_pos; lra). nra. }
      destruct C as [C|C].
      * destruct (R5 a m H1) as (r & Hr & B); [repeat split; cbn; try (apply Reqb_false; assumption); apply sign_of_flip; exact C|]. exists r. split; [exact Hr|lra].
      * destruct (R5 m b H2) as (r & Hr & B); [repeat split; cbn; try (apply Reqb_false; assumption); apply sign_of_flip; exact C|]. exists r. split; [exact Hr|lra].
  - intros A r Hr. pose proof eps64_pos as P. destruct (R6 r Hr) as [(H & E)|(a & b & H & (_ & _ & Hs) & H2 & a' & b' & Q1 & Q2 & Q3 & Q4 & Q5)].
    + cbn in E. apply Reqb_true in E. exists r. split; [rewrite Rminus_eq_0, Rabs_R0; lra|]. left. pose proof (G3 r H) as B. pose proof Hp as (Gn & E1 & E2 & _).
      destruct (segment_exists _ _ g r Gn) as (i & Hi & _); [rewrite E1, E2; unfold from in B; destruct (Reqb _ _) in B; lra|]. exists i. split; [exact Hi|].
      pose proof (value_close A r i Hi) as V. rewrite E, Rminus_0_l, Rabs_Ropp in V. exact V.
    + assert (Lab : a' < b') by (destruct (Req_dec a' b') as [E|E]; [exfalso; apply Q5; rewrite E; reflexivity|lra]).
      destruct (grid_segment _ _ p Hp a b H ltac:(lra)) as (i & I1 & I2 & I3).
      destruct (flip_zero a' b' i _ _ A I1 ltac:(lra) Lab ltac:(lra) Q5) as (z & Hz & C). exists z. split; [|exact C]. rewrite G7, Rmult_1_r in Q4. apply Rabs_le. lra.
Qed.
End Search.
