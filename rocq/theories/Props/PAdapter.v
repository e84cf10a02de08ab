(** C67-C72: the irbasis replacement (adapter). *)
From Coq Require Import String ZArith Reals Arith Lra Lia Sorting.Sorted.
From Coquelicot Require Import Coquelicot.
From Coq Require Import List.
From Verif.Model Require Import Base Poly FT SVE Basis NDArray Adapter.
From Verif.Spec Require Import SRoots SPoly SFT SBasis SAdapter.
From Verif.Proofs Require Import PPolyExamples SVEPolicy AdapterFacts AdapterRoots AdapterProps.
Import ListNotations.
Open Scope R_scope.
Notation length := List.length.

(** ** C67: one maximum per piece of constant sign *)
Theorem C67_one_maximum_per_piece : forall fn, fn <> [] ->
  exists pts, sampling_points fn = Ok pts /\ StronglySorted lt pts /\
    (forall i, (i < length fn)%nat -> exists p, In p pts /\ same_piece fn i p) /\
    (forall p, In p pts -> first_largest fn p).
Proof. exact sampling_points_spec. Qed.
Print Assumptions C67_one_maximum_per_piece.

Theorem C67_choice_is_determined : forall fn p q,
  first_largest fn p -> first_largest fn q -> same_piece fn p q -> p = q.
Proof. exact largest_unique. Qed.
Print Assumptions C67_choice_is_determined.

Theorem C67_no_values : sampling_points [] = Raise ValueError.
Proof. exact sampling_points_empty. Qed.
Print Assumptions C67_no_values.

(** Both ends of 1, 2, -1 are pieces; 2 and -1 are chosen. *)
Example C67_example : first_largest [1; 2; -1] 1 /\ first_largest [1; 2; -1] 2 /\ ~ first_largest [1; 2; -1] 0 /\ ~ same_piece [1; 2; -1] 1 2.
Proof.
  assert (N12 : ~ same_piece [1; 2; -1] 1 2). { intros [H _]. apply (H 1%nat); [lia|]. cbn. lra. }
  assert (N02 : ~ same_piece [1; 2; -1] 0 2). { intros [H _]. apply (H 1%nat); [lia|]. cbn. lra. }
  assert (S01 : same_piece [1; 2; -1] 0 1 /\ same_piece [1; 2; -1] 1 0).
  { assert (A : no_flip [1; 2; -1] 0 1) by (intros k Hk; assert (k = 0)%nat as -> by lia; cbn; lra).
    assert (B : no_flip [1; 2; -1] 1 0) by (intros k Hk; lia). split; split; auto. }
  assert (sym : forall i j, same_piece [1; 2; -1] i j -> same_piece [1; 2; -1] j i) by (intros i j [A B]; split; auto).
  split; [|split; [|split; [|exact N12]]].
  - split; [cbn; lia|]. intros [|[|[|i]]] Hi Hs; cbn in Hi |- *; try lia.
    + rewrite !Rabs_right by lra. split; [lra|intros; lra].
    + split; [lra|lia].
    + exfalso. apply N12, sym, Hs.
  - split; [cbn; lia|]. intros [|[|[|i]]] Hi Hs; cbn in Hi |- *; try lia.
    + contradiction.
    + contradiction.
    + split; [lra|lia].
  - intros [_ H]. destruct (H 1%nat) as [A _]; [cbn; lia|apply S01|]. cbn in A. rewrite !Rabs_right in A by lra. lra.
Qed.

(** ** C68: the full interval of indices *)
Theorem C68_fermionic_interval : forall l, StronglySorted Z.lt l -> Forall (fun n => 0 <= n)%Z l ->
  exists r, full_interval l "F" = Ok r /\ StronglySorted Z.lt r /\ incl l r /\
    (forall n, In n r <-> (In n l \/ In (- n - 1)%Z l)).
Proof. exact full_fermi. Qed.
Print Assumptions C68_fermionic_interval.

Theorem C68_bosonic_interval : forall st l, st <> "F"%string -> StronglySorted Z.lt l -> Forall (fun n => 0 <= n)%Z l -> l <> [] ->
  exists r, full_interval l st = Ok r /\ StronglySorted Z.lt r /\ incl l r /\
    (forall n, In n r <-> (n = 0 \/ In n l \/ In (- n) l)%Z).
Proof. exact full_bose. Qed.
Print Assumptions C68_bosonic_interval.

Theorem C68_bosonic_interval_of_nothing : forall st, st <> "F"%string -> full_interval [] st = Raise IndexError.
Proof. exact full_bose_empty. Qed.
Print Assumptions C68_bosonic_interval_of_nothing.

Example C68_example : full_interval [0; 3]%Z "F" = Ok [-4; -1; 0; 3]%Z /\ full_interval [0; 3]%Z "B" = Ok [-3; 0; 3]%Z /\
  full_interval [2; 3]%Z "B" = Ok [-3; -2; 0; 2; 3]%Z.
Proof. repeat split. Qed.

(** ** C69: roots and sampling points *)
Theorem C69_one_root_per_sign_change : forall (ulx : R -> res R) f, (forall x, -1 < x < 1 -> ulx x = Ok (f x)) ->
  exists zs, ends_with (find_roots ulx) (Ok zs) /\ Forall2 (narrow_change f) (opposite_pairs f mesh) zs /\
    StronglySorted Rlt zs /\ Forall (fun z => -1 < z < 1) zs.
Proof. exact find_roots_spec. Qed.
Print Assumptions C69_one_root_per_sign_change.

Theorem C69_root_of_continuous_function : forall f p z,
  (forall x, fst p <= x <= snd p -> continuity_pt f x) -> narrow_change f p z ->
  exists x, fst p <= x <= snd p /\ f x = 0 /\ Rabs (x - z) <= / 10 ^ 14 / 2.
Proof. exact narrow_zero. Qed.
Print Assumptions C69_root_of_continuous_function.

(** The docstring promises all roots in (-1, 1); a root on the mesh is missed. *)
Theorem C69_finds_all_roots_refuted : exists m, -1 < m < 1 /\ ends_with (find_roots (fun x => Ok (x - m))) (Ok []).
Proof. destruct mesh_zero_missed as (m & _ & H1 & H2). exists m. split; assumption. Qed.
Print Assumptions C69_finds_all_roots_refuted.

Theorem C69_x_points : forall b l f, adapted b -> (l < adim b)%nat ->
  (forall x, -1 <= x <= 1 -> ulx b (Z.of_nat l) x = Ok (f x)) ->
  exists zs pts, ends_with (fun fuel => sampling_points_x b fuel (Z.of_nat l)) (Ok pts) /\
    Forall2 (narrow_change f) (opposite_pairs f mesh) zs /\
    StronglySorted Rlt (-1 :: zs ++ [1]) /\ interlaced (-1 :: zs ++ [1]) pts.
Proof. exact x_points. Qed.
Print Assumptions C69_x_points.

Theorem C69_y_points : forall b l f, adapted b -> (l < adim b)%nat ->
  (forall y, -1 <= y <= 1 -> vly b (Z.of_nat l) y = Ok (f y)) ->
  exists zs pts, ends_with (fun fuel => sampling_points_y b fuel (Z.of_nat l)) (Ok pts) /\
    Forall2 (narrow_change (fun t => f ((t + 1) / 2))) (opposite_pairs (fun t => f ((t + 1) / 2)) mesh) zs /\
    let half := map (fun z => (z + 1) / 2) zs in
    let nodes := -1 :: map Ropp (rev half) ++ (if Nat.even l then [] else [0]) ++ half ++ [1] in
    StronglySorted Rlt nodes /\ interlaced nodes pts /\ map Ropp (rev pts) = pts.
Proof. exact y_points. Qed.
Print Assumptions C69_y_points.

Example C69_example : exists b, adapted b /\ (1 < adim b)%nat /\ (forall x, -1 <= x <= 1 -> ulx b (Z.of_nat 1) x = Ok ((fun x => x) x)).
Proof.
  destruct (ex_adapted "F") as (b & _ & H1 & _ & _ & H2 & _ & H3 & _); [auto|]. exists b. split; [exact H1|]. split; [lia|exact H3].
Qed.

(** ** C70: functions, derivatives and singular values of the adapter basis *)
Theorem C70_functions_of_the_expansion : forall st lam r b l f g,
  sve_ok r -> adapter_basis st lam r = Ok b -> (l < adim b)%nat ->
  represents (su r) l f -> represents (sv r) l g ->
  (forall x, -1 <= x <= 1 -> ulx b (Z.of_nat l) x = Ok (f x) /\ vly b (Z.of_nat l) x = Ok (g x)) /\
  (forall x, x < -1 \/ 1 < x -> ulx b (Z.of_nat l) x = Raise ValueError /\ vly b (Z.of_nat l) x = Raise ValueError) /\
  sl b (Z.of_nat l) = Ok (sval r l).
Proof. exact adapter_functions. Qed.
Print Assumptions C70_functions_of_the_expansion.

Theorem C70_size : forall r st lam b e, sve_ok r -> adapter_basis st lam r = Ok b -> seps r = Some e ->
  adim b = nabove e (ss r).
Proof. exact adapter_size. Qed.
Print Assumptions C70_size.

Theorem C70_accepted_statistics : forall r st lam e, sve_ok r -> seps r = Some e ->
  ((st = "F" \/ st = "B")%string -> exists b, adapter_basis st lam r = Ok b /\ astat b = st /\ alam b = lam) /\
  ((st <> "F" /\ st <> "B")%string -> adapter_basis st lam r = Raise KeyError).
Proof. exact adapter_accepts. Qed.
Print Assumptions C70_accepted_statistics.

Theorem C70_load : forall compute warn st lam, load compute warn st lam =
  (if string_dec st "F" then (do r <- compute (logistic lam) None; adapter_basis st lam r)
   else if string_dec st "B" then
     (if Rlt_dec lam 0 then Raise ValueError else do r <- compute (Kern (Some lam) 1) None; adapter_basis st lam r)
   else Raise KeyError, warn).
Proof. exact load_result. Qed.
Print Assumptions C70_load.

Theorem C70_derivatives : forall b l m i x f, adapted b -> (l < adim b)%nat ->
  ((i < gnseg (vgeom (au b)))%nat -> knot (vgeom (au b)) i < x < knot (vgeom (au b)) (S i) ->
   (forall y, -1 <= y <= 1 -> ulx b (Z.of_nat l) y = Ok (f y)) ->
   exists d, d_ulx b (Z.of_nat l) x m = Ok d /\ is_derive_n f m x d) /\
  ((i < gnseg (vgeom (av b)))%nat -> knot (vgeom (av b)) i < x < knot (vgeom (av b)) (S i) ->
   (forall y, -1 <= y <= 1 -> vly b (Z.of_nat l) y = Ok (f y)) ->
   exists d, d_vly b (Z.of_nat l) x m = Ok d /\ is_derive_n f m x d).
Proof. exact adapter_deriv. Qed.
Print Assumptions C70_derivatives.

Example C70_example : exists b, adapter_basis "B" 3 (ex_sve (1 / 10)) = Ok b /\ adapted b /\ adim b = 2%nat /\ vgeom (au b) = unit_geom /\
  knot unit_geom 0 < 0 < knot unit_geom 1.
Proof.
  destruct (ex_adapted "B") as (b & H0 & H1 & _ & _ & H2 & _ & _ & H3); [auto|]. exists b. repeat (split; [assumption|]).
  unfold knot. cbn. lra.
Qed.

(** ** C71: compute_unl *)
Theorem C71_one_function : forall b n l, adapted b -> (l < adim b)%nat ->
  exists x, compute_unl b n (Some (Z.of_nat l)) = Ok x /\
    shp x = filter (fun k => negb (Nat.eqb k 1)) [length (ravel n)] /\
    forall i m, nth_error (ravel n) i = Some m -> unl_value b l m (elt x (drop_ones [length (ravel n)] [i])).
Proof. exact compute_unl_one. Qed.
Print Assumptions C71_one_function.

Theorem C71_all_functions : forall b n, adapted b ->
  exists x, compute_unl b n None = Ok x /\
    shp x = filter (fun k => negb (Nat.eqb k 1)) [length (ravel n); adim b] /\
    forall i m l, nth_error (ravel n) i = Some m -> (l < adim b)%nat ->
      unl_value b l m (elt x (drop_ones [length (ravel n); adim b] [i; l])).
Proof. exact compute_unl_all. Qed.
Print Assumptions C71_all_functions.

Theorem C71_fourier_integral : forall b l m v f, adapted b -> unl_value b l m v -> (l < adim b)%nat ->
  (forall x, -1 <= x <= 1 -> ulx b (Z.of_nat l) x = Ok (f x)) -> Rabs (IZR (freq_of b m)) < 40 * alam b ->
  is_fourier (fun x => PI * IZR (freq_of b m) * (x + 1) / 2) f (-1) 1 (Cmult (RtoC (sqrt 2)) v).
Proof. exact unl_fourier. Qed.
Print Assumptions C71_fourier_integral.

(** Below the threshold lies, for instance, the index 2 of a fermionic basis with Lambda = 3. *)
Example C71_example : exists b, adapted b /\ (1 < adim b)%nat /\ freq_of b 2 = 5%Z /\ Rabs (IZR (freq_of b 2)) < 40 * alam b /\
  drop_ones [3; 2]%nat [2; 1]%nat = [2; 1]%nat /\ drop_ones [1; 2]%nat [0; 1]%nat = [1]%nat.
Proof.
  destruct (ex_adapted "F") as (b & _ & H1 & H2 & H3 & H4 & _); [auto|]. exists b. split; [exact H1|]. split; [lia|].
  unfold freq_of. rewrite H2, H3. cbn. repeat split. rewrite Rabs_right by lra. lra.
Qed.

(** ** C72: sampling frequencies *)
Theorem C72_sampling_frequencies : forall b l, adapted b -> alternating b -> (l < adim b)%nat ->
  exists ys pts r, sampling_points_matsubara b (Z.of_nat l) = Ok r /\
    length ys = length (start_guesses 1000) /\
    (forall i m, nth_error (start_guesses 1000) i = Some m ->
       unl_value b l m (if real_row b l then (nth i ys 0, 0) else (0, nth i ys 0))) /\
    (forall p, In p pts -> first_largest ys p) /\
    (forall i, (i < length ys)%nat -> exists p, In p pts /\ same_piece ys i p) /\
    StronglySorted Z.lt r /\
    (forall n, In n r <-> In (mirror_index b n) r) /\
    (forall n, (0 <= n)%Z -> In n r <-> (n = 0%Z /\ astat b <> "F"%string) \/ exists p, In p pts /\ nth p (start_guesses 1000) 0%Z = n).
Proof. exact mats_points. Qed.
Print Assumptions C72_sampling_frequencies.

Theorem C72_search_indices : forall n, (2 <= n)%nat -> (Z.of_nat n <= 10 ^ 8)%Z ->
  StronglySorted Z.lt (start_guesses n) /\
  (forall k, (0 <= k < Z.of_nat n)%Z -> In k (start_guesses n)) /\
  (forall k, In k (start_guesses n) -> (0 <= k <= 10 ^ 8)%Z) /\ In (10 ^ 8)%Z (start_guesses n).
Proof. exact start_guesses_spec. Qed.
Print Assumptions C72_search_indices.

Theorem C72_order_too_large : forall b l, adapted b -> (Z.of_nat (adim b) <= l)%Z ->
  sampling_points_matsubara b l = Raise RuntimeError.
Proof. exact mats_too_large. Qed.
Print Assumptions C72_order_too_large.

Example C72_example : exists b, adapted b /\ alternating b /\ adim b = 2%nat.
Proof.
  destruct (ex_adapted "B") as (b & _ & H1 & _ & _ & H4 & H5 & _); [auto|]. exists b. auto.
Qed.
