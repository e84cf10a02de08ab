(** C11 - C14: Matsubara sampling points. *)
From Coq Require Import List ZArith Bool Reals Lra Lia Sorted.
From Verif.Model Require Import Base Roots Matsubara.
From Verif.Spec Require Import SRoots SMatsubara.
From Verif.Proofs Require Import MatsubaraFacts DefaultMatsubara MatsubaraExamples.
Import ListNotations.
Open Scope Z_scope.

(** C11 *)
Theorem C11_symmetrize_sorted_nonnegative :
  forall l, StronglySorted Z.le l -> Forall (fun x => 0 <= x) l ->
  exists r, symmetrize l = Ok r /\ symmetric r /\ StronglySorted Z.le r /\
    (forall n, n <> 0 -> mult r n = mult l (Z.abs n)) /\
    mult r 0 = (2 * mult l 0 - 1)%nat /\
    (StronglySorted Z.lt l -> StronglySorted Z.lt r).
Proof. exact symmetrize_ok. Qed.
Print Assumptions C11_symmetrize_sorted_nonnegative.

Theorem C11_symmetrize_otherwise_valueerror :
  forall l, ~ (StronglySorted Z.le l /\ Forall (fun x => 0 <= x) l) ->
  symmetrize l = Raise ValueError.
Proof. exact symmetrize_raise. Qed.
Print Assumptions C11_symmetrize_otherwise_valueerror.

Example C11_with_zero : symmetrize [0; 2; 4] = Ok [-4; -2; 0; 2; 4].
Proof. reflexivity. Qed.
Example C11_without_zero : symmetrize [1; 3] = Ok [-3; -1; 1; 3].
Proof. reflexivity. Qed.
Example C11_rejects : symmetrize [3; 1] = Raise ValueError /\ symmetrize [-1; 1] = Raise ValueError.
Proof. split; reflexivity. Qed.

(** C12: [uhat] lists the searched parts of all available basis functions. *)
Theorem C12_default_matsubara_points :
  forall grid q uhat L po,
  search_grid grid -> uhat <> [] ->
  exists out, ends_with (fun fuel => default_matsubara fuel grid q uhat L false po) out /\
    let lr := l_requested q L in
    let spare := (lr < length uhat)%nat in
    let f := last uhat (fun _ => 0%R) in
    (forall wn warned, out = Ok (wn, warned) ->
       Forall (fun n => n mod 2 = zeta q) wn /\
       (po = true -> Forall (fun n => 0 <= n) wn) /\
       (po = false -> symmetric wn) /\
       (~ spare /\ q = Even -> In 0 wn) /\
       (spare \/ q = Even \/ no_double_turn f grid -> StronglySorted Z.lt wn) /\
       (warned = true <-> length wn <> (if po then Nat.div (lr + 1) 2 else lr))) /\
    (spare -> exists wn warned, out = Ok (wn, warned)) /\
    (~ spare -> no_double_turn f grid -> (exists a c b, adjacent3 grid a c b /\ turns f a c b) ->
       exists wn warned, out = Ok (wn, warned)).
Proof. exact default_matsubara_end. Qed.
Print Assumptions C12_default_matsubara_points.

(** The requested count is the smallest number of the right parity that is not
    below [L]: even for fermions, odd for bosons. *)
Theorem C12_requested_count :
  forall q L, (L <= l_requested q L <= S L)%nat /\ Nat.even (l_requested q L) = match q with Odd => true | Even => false end.
Proof. exact l_requested_spec. Qed.
Print Assumptions C12_requested_count.

(** Without a spare function the fermionic points can come out unordered. *)
Theorem C12_fallback_points_increasing_refuted :
  exists f, forall pow2, accurate_pow2 pow2 ->
    ends_with (fun fuel => default_matsubara fuel (default_grid pow2) Odd [f] 2 false true)
              (Ok ([661; 653; 693; 755], true)).
Proof. exact fallback_unordered. Qed.
Print Assumptions C12_fallback_points_increasing_refuted.

(** If the highest function has no extremum at all the call fails. *)
Theorem C12_fallback_always_returns_refuted :
  ends_with (fun fuel => default_matsubara fuel [0; 1; 2] Odd [fun _ => 1%R] 1 false false) (Raise IndexError).
Proof. exact fallback_constant. Qed.
Print Assumptions C12_fallback_always_returns_refuted.

Example C12_hypotheses_met : search_grid [0; 1; 2; 5; 9].
Proof. repeat split; repeat constructor; lia. Qed.
Example C12_spare_case :
  ends_with (fun fuel => default_matsubara fuel [0; 1; 2; 5; 9] Even [fun x => 1%R; fun x => IZR (x - 5)] 0 false false)
            (Ok ([-10; 10], true)).
Proof. exact spare_case. Qed.

(** C13 *)
Theorem C13_fence_structure :
  forall wn po wn' k,
  fence_sampling wn po = Ok wn' -> StronglySorted Z.lt wn ->
  StronglySorted Z.lt wn' /\
  (forall n, In n wn -> In n wn') /\
  (Forall (fun n => n mod 2 = k) wn -> Forall (fun n => n mod 2 = k) wn') /\
  (Forall (fun n => 0 <= n) wn -> Forall (fun n => 0 <= n) wn') /\
  (length wn' <= length wn + (if (20 <=? length wn)%nat then if po then 1 else 2 else 0)
                 + (if ((if po then 41 else 40) <=? length wn)%nat then if po then 1 else 2 else 0))%nat.
Proof. exact fence_structure. Qed.
Print Assumptions C13_fence_structure.

Theorem C13_fence_fails_only_on_empty :
  forall wn po, (wn <> [] \/ po = true -> exists wn', fence_sampling wn po = Ok wn') /\
                fence_sampling [] false = Raise IndexError.
Proof. exact fence_total. Qed.
Print Assumptions C13_fence_fails_only_on_empty.

(** Symmetric input with largest frequency W stays symmetric exactly if no
    point is added, both pairs are added, or the shift is zero. *)
Theorem C13_fence_symmetric_iff :
  forall wn wn' W,
  symmetric wn -> StronglySorted Z.lt wn -> In W wn -> (forall n, In n wn -> n <= W) -> 0 <= W ->
  fence_sampling wn false = Ok wn' ->
  (symmetric wn' <-> (length wn < 20)%nat \/ (40 <= length wn)%nat \/ round40 W = 0).
Proof. exact fence_symmetry. Qed.
Print Assumptions C13_fence_symmetric_iff.

Theorem C13_fence_keeps_symmetry_refuted :
  exists wn wn', symmetric wn /\ StronglySorted Z.lt wn /\ fence_sampling wn false = Ok wn' /\ ~ symmetric wn'.
Proof. exact fence_asymmetric. Qed.
Print Assumptions C13_fence_keeps_symmetry_refuted.

(** C14: whatever the rounding of [2**x], within a relative 2^-40. *)
Theorem C14_default_grid :
  forall pow2, accurate_pow2 pow2 ->
  length (default_grid pow2) = 369%nat /\ StronglySorted Z.lt (default_grid pow2) /\
  firstn 65 (default_grid pow2) = map Z.of_nat (seq 0 65) /\ last (default_grid pow2) 0 = 2 ^ 25 /\
  search_grid (default_grid pow2).
Proof. exact default_grid_facts. Qed.
Print Assumptions C14_default_grid.

Example C14_hypothesis_met : accurate_pow2 (Rpower 2).
Proof. exact exact_pow2_accurate. Qed.
