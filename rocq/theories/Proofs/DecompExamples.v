(** Concrete decompositions. *)
From Coq Require Import String ZArith Arith Bool Reals Lia Lra.
From Coquelicot Require Import Coquelicot.
From Coq Require Import List Sorted.
From Verif.Model Require Import Base Util Num FT SVE NDArray Sampling Decomp.
From Verif.Spec Require Import SSampling SDecomp.
From Verif.Proofs Require Import BaseFacts SumFacts FTFacts FTModel NDFacts LstsqFacts SamplingFacts SplitFacts SamplingProps DecompFacts DecompSplit.
Import ListNotations.
Open Scope R_scope.
Notation length := List.length.

(** diag(2, 0) as an array, and its decomposition. *)
Definition id2 : mat := Mat 2 2 delta.
Definition ex_arr : nd C := Nd [2; 2]%nat (fun idx => match idx with [0%nat; 0%nat] => RtoC 2 | _ => RtoC 0 end).
Definition ex_svd (_ : mat) : svd_result := SVDRes id2 [2; 0] id2.

Ltac small k := destruct k as [|[|k]]; [| |lia].
Ltac csums := unfold delta; cbn; apply C_eq; unfold Re, Im; cbn; try ring; try lra.

Lemma ex_is_svd : is_svd (nd_mat ex_arr) (ex_svd (nd_mat ex_arr)).
Proof.
  unfold is_svd, ex_svd. cbn [r_u r_s r_vh id2 mr mc me nd_mat ex_arr shp nth length elt].
  split; [reflexivity|]. split; [reflexivity|]. split; [reflexivity|]. split; [reflexivity|].
  split; [|split; [|split]].
  - intros k k' H H'. small k; small k'; split; csums.
  - intros i l Hi Hl. small i; small l; csums.
  - intros k Hk. small k; cbn; lra.
  - intros k Hk. destruct k; [cbn; lra|lia].
Qed.

(** The row (1, i): one decomposition, and what all of them have in common. *)
Definition row_1i : mat := Mat 1 2 (fun _ l => match l with 0%nat => RtoC 1 | _ => Ci end).

Definition row_1i_svd : svd_result :=
  SVDRes (Mat 1 1 (fun _ _ => RtoC 1)) [sqrt 2]
         (Mat 1 2 (fun _ l => match l with 0%nat => RtoC (/ sqrt 2) | _ => Cmult Ci (RtoC (/ sqrt 2)) end)).

Lemma sqrt2_pos : 0 < sqrt 2.
Proof. apply sqrt_lt_R0. lra. Qed.
Lemma half_half : / sqrt 2 * / sqrt 2 = / 2.
Proof. rewrite <- Rinv_mult. now rewrite sqrt_sqrt by lra. Qed.
Lemma sqrt2_inv : sqrt 2 * / sqrt 2 = 1.
Proof. apply Rinv_r. pose proof sqrt2_pos. lra. Qed.

Lemma row_1i_is_svd : is_svd row_1i row_1i_svd.
Proof.
  unfold is_svd, row_1i_svd, row_1i. cbn [r_u r_s r_vh mr mc me length].
  repeat (split; [reflexivity|]). split; [|split; [|split]].
  - intros k k' H H'. destruct k; [|lia]. destruct k'; [|lia]. split; [csums|].
    pose proof half_half. csums.
  - intros i l Hi Hl. destruct i; [|lia]. pose proof sqrt2_inv. small l; csums.
  - intros k Hk. destruct k; [|lia]. cbn. pose proof sqrt2_pos. lra.
  - intros k Hk. lia.
Qed.

Lemma row_1i_wrong L hint r w : is_svd row_1i (numpy_svd L row_1i) ->
  svd_compute L Float64 row_1i hint "default" = Ok (r, w) ->
  ~ (forall i l, (i < 1)%nat -> (l < 2)%nat -> me row_1i i l = product_T r i l).
Proof.
  intros (S1 & S2 & S3 & S4 & So & Sf & _) E D.
  assert (E' : r = default_svd (numpy_svd L) row_1i).
  { unfold svd_compute in E. destruct (xprec_svd L); cbn in E; now injection E. }
  subst r. clear E. unfold default_svd, product_T in D. cbn [t_u t_s t_v] in D.
  set (q := numpy_svd L row_1i) in *. cbn [row_1i mr mc me] in *.
  destruct (r_s q) as [|s0 [|s1 s]] eqn:Es; cbn [length] in *.
  - specialize (Sf 0%nat 0%nat ltac:(lia) ltac:(lia)). cbn in Sf. injection Sf as Sf. lra.
  - pose proof (Sf 0%nat 0%nat ltac:(lia) ltac:(lia)) as F0. pose proof (Sf 0%nat 1%nat ltac:(lia) ltac:(lia)) as F1.
    pose proof (D 0%nat 0%nat ltac:(lia) ltac:(lia)) as D0. pose proof (D 0%nat 1%nat ltac:(lia) ltac:(lia)) as D1.
    cbn [csumn nth adjoint me] in *.
    cbn in F0, F1, D0, D1.
    set (u := me (r_u q) 0 0) in *. set (x := me (r_vh q) 0 0) in *. set (y := me (r_vh q) 0 1) in *.
    destruct u as [u1 u2], x as [x1 x2], y as [y1 y2]. unfold Cplus, Cmult, Cconj, RtoC, Ci in *. cbn in *.
    injection F0 as A1 A2. injection F1 as A3 A4. injection D0 as B1 B2. injection D1 as B3 B4.
    (* c = u s0; c (x - conj x) = 0 and c <> 0, so x and y are real *)
    set (c1 := u1 * s0) in *. set (c2 := u2 * s0) in *.
    assert (Q1 : c2 * x2 = 0) by (unfold c1, c2 in *; nra).
    assert (Q2 : c1 * x2 = 0) by (unfold c1, c2 in *; nra).
    assert (Q3 : c2 * y2 = 0) by (unfold c1, c2 in *; nra).
    assert (Q4 : c1 * y2 = 0) by (unfold c1, c2 in *; nra).
    assert (R1 : c1 * x1 = 1) by (unfold c1, c2 in *; nra).
    assert (R2 : c2 * x1 = 0) by (unfold c1, c2 in *; nra).
    assert (R3 : c1 * y1 = 0) by (unfold c1, c2 in *; nra).
    assert (R4 : c2 * y1 = 1) by (unfold c1, c2 in *; nra).
    nra.
  - destruct (So 0%nat 0%nat ltac:(lia) ltac:(lia)) as [O0 _]. destruct (So 1%nat 1%nat ltac:(lia) ltac:(lia)) as [O1 _].
    destruct (So 0%nat 1%nat ltac:(lia) ltac:(lia)) as [O2 _]. unfold delta in *. cbn in O0, O1, O2.
    destruct (me (r_u q) 0 0) as [u1 u2], (me (r_u q) 0 1) as [w1 w2].
    unfold Cplus, Cmult, Cconj, RtoC in *. cbn in *. injection O0 as A1 A2. injection O1 as A3 A4. injection O2 as B1 B2.
    assert (N : (u1 * u1 + u2 * u2) * (w1 * w1 + w2 * w2) = 1).
    { replace (u1 * u1 + u2 * u2) with 1 by lra. replace (w1 * w1 + w2 * w2) with 1 by lra. ring. }
    assert (M : (u1 * u1 + u2 * u2) * (w1 * w1 + w2 * w2) = (u1 * w1 + u2 * w2) * (u1 * w1 + u2 * w2) + (u1 * w2 - u2 * w1) * (u1 * w2 - u2 * w1)) by ring.
    replace (u1 * w1 + u2 * w2) with 0 in M by lra. replace (u1 * w2 - u2 * w1) with 0 in M by lra. lra.
Qed.

(** The column (1, i) whose first row belongs to frequency zero: stacked it is (1, 0, 1). *)
Definition ex_split_arr : nd C := Nd [2; 1]%nat (fun idx => match idx with [0%nat; _] => RtoC 1 | _ => Ci end).
Definition ex_split_svd (_ : mat) : svd_result :=
  SVDRes (Mat 3 1 (fun i _ => match i with 1%nat => RtoC 0 | _ => RtoC (/ sqrt 2) end)) [sqrt 2] (Mat 1 1 (fun _ _ => RtoC 1)).

Lemma ex_split_is_svd : is_real_svd (stacked (nd_mat ex_split_arr) 1) (ex_split_svd (stacked (nd_mat ex_split_arr) 1)).
Proof.
  unfold is_real_svd, is_svd, ex_split_svd. cbn [r_u r_s r_vh mr mc me length stacked nd_mat ex_split_arr shp nth elt Nat.add Nat.sub].
  split.
  - repeat (split; [reflexivity|]). split; [|split; [|split]].
    + intros k k' H H'. destruct k; [|lia]. destruct k'; [|lia]. pose proof half_half. split; csums.
    + intros i l Hi Hl. destruct l; [|lia]. pose proof sqrt2_inv. destruct i as [|[|[|i]]]; [| | |lia]; csums.
    + intros k Hk. destruct k; [|lia]. cbn. pose proof sqrt2_pos. lra.
    + intros k Hk. lia.
  - split; [|reflexivity]. intros i k Hi Hk. destruct i as [|[|i]]; reflexivity.
Qed.

(** The wide real matrix (3, 4) in all four libraries. *)
Definition row_34 : mat := Mat 1 2 (fun _ l => match l with 0%nat => RtoC 3 | _ => RtoC 4 end).
Definition dir34 (l : nat) : C := match l with 0%nat => RtoC (3 / 5) | _ => RtoC (4 / 5) end.
Definition ex_h : svd_result := SVDRes (Mat 1 1 (fun _ _ => RtoC 1)) [5] (Mat 1 2 (fun _ l => dir34 l)).
Definition ex_wide : svd_triple := Triple (Mat 1 1 (fun _ _ => RtoC 1)) [5] (Mat 2 1 (fun l _ => dir34 l)).
Definition ex_tall : svd_triple := Triple (Mat 2 1 (fun l _ => dir34 l)) [5] (Mat 1 1 (fun _ _ => RtoC 1)).
Definition ex_libs : libs :=
  Libs (fun _ => ex_h) (fun _ _ => ex_wide) (Some (fun _ _ => Gejsv ex_tall 0 0)) (Some (fun _ => ex_h)).

Lemma ex_h_ok : decomposes_h row_34 ex_h 0.
Proof.
  unfold decomposes_h, ex_h, row_34, fits. cbn [r_u r_s r_vh mr mc me length].
  split; [auto|]. split; [|split; [|split]].
  - intros k k' H H'. destruct k; [|lia]. destruct k'; [|lia]. csums.
  - intros k k' H H'. destruct k; [|lia]. destruct k'; [|lia]. csums.
  - intros k l _ _. unfold dir34. now destruct l.
  - intros i l Hi Hl. right. rewrite <- Cmod_0. f_equal. destruct i; [|lia]. small l; csums.
Qed.

Lemma ex_wide_ok : decomposes row_34 ex_wide 0.
Proof.
  unfold decomposes, ex_wide, row_34. cbn [t_u t_s t_v mr mc me length].
  repeat (split; [reflexivity|]). split; [|split].
  - intros k k' H H'. destruct k; [|lia]. destruct k'; [|lia]. csums.
  - intros k k' H H'. destruct k; [|lia]. destruct k'; [|lia]. csums.
  - intros i l Hi Hl. right. rewrite <- Cmod_0. f_equal. destruct i; [|lia]. small l; csums.
Qed.

Lemma ex_tall_ok : decomposes (tall row_34) ex_tall 0.
Proof.
  unfold decomposes, ex_tall, tall, row_34, transposed. cbn [t_u t_s t_v mr mc me length Nat.ltb Nat.leb].
  repeat (split; [reflexivity|]). split; [|split].
  - intros k k' H H'. destruct k; [|lia]. destruct k'; [|lia]. csums.
  - intros k k' H H'. destruct k; [|lia]. destruct k'; [|lia]. csums.
  - intros i l Hi Hl. right. rewrite <- Cmod_0. f_equal. destruct l; [|lia]. small i; csums.
Qed.
