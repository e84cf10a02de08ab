(** C76-C78: default sampling frequencies, sampling objects with default points,
    basis sets.  [compute] is an arbitrary computation of the expansion, [svd]
    stands for numpy.linalg.svd and [grid] for the search grid (C14).  The times
    are those of exact bisection (C08 bounds the rounding). *)
From Coq Require Import String ZArith Arith Bool Reals Lia Lra.
From Coquelicot Require Import Coquelicot.
From Coq Require Import List Sorting.Sorted.
From Verif.Model Require Import Base Util Num Roots Matsubara Poly FT SVE Basis Kernel Augment NDArray Sampling DLR Defaults.
From Verif.Spec Require Import SUtil SRoots SMatsubara SGauss SPoly SFT SSVE SBasis SKernel SAugment SSampling SDLR SDefaults.
From Verif.Proofs Require Import SVEPolicy DefaultsProps DefaultsSampling DefaultsSet PPolyExamples FTProps AugmentProps DLRProps DLRClaims DefaultMatsubara.
Import ListNotations.
Open Scope R_scope.
Notation length := List.length.

(** C76: with a spare function, default_matsubara_sampling_points(npoints=L)
    brackets its sign changes.  [hat F l n] is the value of uhat_full[l] at n. *)
Theorem C76_sign_changes :
  forall compute b, built compute b ->
  forall grid L (po : bool), search_grid grid ->
  let F := buhat_full b in let lr := l_requested (stat_freq b) L in
  (lr < length (ss (bsve b)))%nat -> definite (bsve b) lr ->
  exists wn, let w := negb (length wn =? (if po then Nat.div (lr + 1) 2 else lr))%nat in
    ends_with (fun fuel => basis_matsubara fuel grid b (Some L) po) (Ok (wn, w)) /\
    Forall (allowed b) wn /\
    (po = true -> Forall (fun n => 0 <= n)%Z wn) /\ (po = false -> symmetric wn) /\ StronglySorted Z.lt wn /\
    (forall n, In n wn -> (0 <= n)%Z -> crosses (hat F lr n) (hat F lr (n + 2)%Z)) /\
    (forall x, In x grid -> hat F lr (nu b x) = RtoC 0 -> In (nu b x) wn) /\
    (forall a c, adjacent grid a c -> opposite (hat F lr (nu b a)) (hat F lr (nu b c)) ->
       exists n, (In n wn /\ (nu b a <= n < nu b c)%Z) /\ forall n', In n' wn -> (nu b a <= n' < nu b c)%Z -> n' = n).
Proof. exact matsubara_spare. Qed.
Print Assumptions C76_sign_changes.

(** Without a spare function: the extrema of the highest function. *)
Theorem C76_extrema :
  forall compute b, built compute b ->
  forall grid L (po : bool), search_grid grid ->
  let N := length (ss (bsve b)) in let lr := l_requested (stat_freq b) L in
  (N <= lr)%nat -> definite (bsve b) (N - 1) ->
  exists g out, on_axis b (N - 1) g /\
    ends_with (fun fuel => basis_matsubara fuel grid b (Some L) po) out /\
    (forall wn w, out = Ok (wn, w) ->
       Forall (allowed b) wn /\
       (po = true -> Forall (fun n => 0 <= n)%Z wn) /\ (po = false -> symmetric wn) /\
       (stat_freq b = Even \/ no_double_turn g grid -> StronglySorted Z.lt wn) /\
       (w = true <-> length wn <> (if po then Nat.div (lr + 1) 2 else lr)) /\
       forall y0 y1 yl yl' l1 l2, grid = y0 :: y1 :: l1 -> grid = l2 ++ [yl'; yl] ->
       exists x0, (forall n, (0 <= n)%Z -> In n wn <-> (n = 0%Z /\ stat_freq b = Even) \/ exists x, In x x0 /\ n = nu b x) /\
         (In y0 x0 <-> outer_max g y0 y1) /\ (In yl x0 <-> outer_max g yl yl') /\
         (forall a c d, adjacent3 grid a c d -> turns g a c d -> exists r, In r x0 /\ inner_max g a d r) /\
         (forall r, In r x0 -> (0 <= r)%Z /\
            (r = y0 \/ r = yl \/ (exists a c d, adjacent3 grid a c d /\ turns g a c d /\ inner_max g a d r)))) /\
    (no_double_turn g grid -> (exists a c d, adjacent3 grid a c d /\ turns g a c d) -> exists wn w, out = Ok (wn, w)).
Proof. exact matsubara_fallback. Qed.
Print Assumptions C76_extrema.

(** Functions not marked as even or odd cannot be searched. *)
Theorem C76_no_parity :
  forall compute b, built compute b ->
  forall grid L (po : bool) fuel,
  let N := length (ss (bsve b)) in let lr := l_requested (stat_freq b) L in
  unmarked (bsve b) (if (lr <? N)%nat then lr else N - 1)%nat ->
  basis_matsubara fuel grid b (Some L) po = Some (Raise ValueError).
Proof. exact matsubara_unmarked. Qed.
Print Assumptions C76_no_parity.

(** What is searched: below the threshold 40 Lambda, the Fourier integrals of
    the scaled functions of the expansion. *)
Theorem C76_searched_values :
  forall compute b, built compute b ->
  forall lam l f n, klam (bkernel b) = Some lam -> (l < length (ss (bsve b)))%nat -> represents (su (bsve b)) l f ->
  allowed b n -> Rabs (IZR n) < 40 * lam ->
  is_fourier (fun t => PI * IZR n * t / bbeta b) (fun t => sqrt (2 / bbeta b) * f (2 * t / bbeta b - 1)) 0 (bbeta b)
    (hat (buhat_full b) l n).
Proof.
  intros compute b Hb lam l f n H1 H2 H3 H4. apply (full_fourier compute b Hb); auto. now apply DefaultsFacts.freq_ok_of.
Qed.
Print Assumptions C76_searched_values.

(** The default number of points is the size of the basis. *)
Theorem C76_default_number :
  forall fuel grid po,
  (forall b, basis_matsubara fuel grid b None po = basis_matsubara fuel grid b (Some (bsize b)) po) /\
  (forall a, aug_matsubara fuel grid a None po =
             basis_matsubara fuel grid (abasis a) (Some (length (aaugs a) + bsize (abasis a))%nat) po) /\
  (forall d, dlr_matsubara fuel grid d None po = basis_matsubara fuel grid (dl_basis d) (Some (bsize (dl_basis d))) po).
Proof. intros. repeat split. Qed.
Print Assumptions C76_default_number.

(** Fermions with two of three functions wanted; bosons with none to spare. *)
Example C76_hypotheses_met :
  (exists b, built no_compute b /\ l_requested (stat_freq b) 1 = 2%nat /\ length (ss (bsve b)) = 3%nat /\ definite (bsve b) 2) /\
  (exists b, built no_compute b /\ l_requested (stat_freq b) 2 = 3%nat /\ length (ss (bsve b)) = 3%nat /\ definite (bsve b) 2) /\
  search_grid [0; 1; 2; 5; 9]%Z.
Proof.
  split; [|split].
  - destruct (ex3_basis "F"%string ltac:(auto)) as (b & Hb & Hs & _ & Hr & _). exists b. unfold stat_freq. rewrite Hs, Hr.
    split; [exact Hb|]. split; [reflexivity|]. split; [reflexivity|]. apply ex3_definite. lia.
  - destruct (ex3_basis "B"%string ltac:(auto)) as (b & Hb & Hs & _ & Hr & _). exists b. unfold stat_freq. rewrite Hs, Hr.
    split; [exact Hb|]. split; [reflexivity|]. split; [reflexivity|]. apply ex3_definite. lia.
  - repeat split; repeat constructor; lia.
Qed.

(** C77: TauSampling(basis) samples at the default times, and is the object
    TauSampling(basis, points) made with these. *)
Theorem C77_tau_sampling :
  forall compute svd b, built compute b -> tau_points_exist b (bsize b) ->
  exists s w, ends_with (fun fuel => tau_default (fun x => x) fuel svd b) (Ok (s, w)) /\
    ends_with (fun fuel => default_tau (fun x => x) fuel b None) (Ok (ts_points s, w)) /\
    tau_sampling svd (sb_of_basis b) (ts_points s) = Ok s /\
    tau_sampling_at svd (sb_of_basis b) (as_array (ts_points s)) = Ok s /\
    good_times (bbeta b) (ts_points s) /\ (w = true <-> length (ts_points s) <> bsize b).
Proof. exact tau_default_ok. Qed.
Print Assumptions C77_tau_sampling.

(** The same for an augmented basis of functions in time, ... *)
Theorem C77_tau_augmented :
  forall compute svd a, built compute (abasis a) -> tau_points_exist (abasis a) (augsize a) ->
  Forall (fun f => tau_aug f /\ aug_beta f = bbeta (abasis a)) (aaugs a) ->
  exists s w, ends_with (fun fuel => tau_default_aug (fun x => x) fuel svd a) (Ok (s, w)) /\
    tau_sampling svd (sb_of_aug true a) (ts_points s) = Ok s /\
    tau_sampling_at svd (sb_of_aug true a) (as_array (ts_points s)) = Ok s /\
    good_times (bbeta (abasis a)) (ts_points s) /\ (w = true <-> length (ts_points s) <> augsize a).
Proof. exact tau_default_aug_ok. Qed.
Print Assumptions C77_tau_augmented.

(** ... not if one of them is the constant in frequency, whose values are NaN. *)
Theorem C77_tau_augmented_constant :
  forall compute svd a pts w, built compute (abasis a) ->
  ends_with (fun fuel => aug_default_tau (fun x => x) fuel a None) (Ok (pts, w)) -> pts <> [] ->
  (exists f, In f (aaugs a) /\ ~ tau_aug f) ->
  ends_with (fun fuel => tau_default_aug (fun x => x) fuel svd a) (Raise ValueError).
Proof. exact tau_default_aug_nan. Qed.
Print Assumptions C77_tau_augmented_constant.

(** The same for a DLR basis, which uses the times of its basis. *)
Theorem C77_tau_dlr :
  forall compute svd f d svd', built compute (dl_basis d) -> dlr_built svd' d -> tfun_ok f ->
  (exists w, In w (dl_poles d) /\ w <> 0) -> tau_points_exist (dl_basis d) (bsize (dl_basis d)) ->
  exists s w, ends_with (fun fuel => tau_default_dlr (fun x => x) fuel svd f d) (Ok (s, w)) /\
    tau_sampling svd (sb_of_dlr f d) (ts_points s) = Ok s /\
    tau_sampling_at svd (sb_of_dlr f d) (as_array (ts_points s)) = Ok s /\
    ends_with (fun fuel => default_tau (fun x => x) fuel (dl_basis d) None) (Ok (ts_points s, w)) /\
    good_times (bbeta (dl_basis d)) (ts_points s) /\ (w = true <-> length (ts_points s) <> bsize (dl_basis d)).
Proof. exact tau_default_dlr_ok. Qed.
Print Assumptions C77_tau_dlr.

(** MatsubaraSampling(basis): errors of the search are passed on; otherwise it
    samples at the default frequencies, and is the object made with these. *)
Theorem C77_matsubara_sampling :
  forall compute grid svd b (po : bool) out, built compute b -> search_grid grid ->
  ends_with (fun fuel => basis_matsubara fuel grid b None po) out ->
  match out with
  | Raise e => ends_with (fun fuel => mats_default fuel grid svd b po) (Raise e)
  | Ok (wn, w) =>
      Forall (allowed b) wn /\ (po = true -> Forall (fun n => 0 <= n)%Z wn) /\ (po = false -> symmetric wn) /\
      (po = true -> wn = [] -> ends_with (fun fuel => mats_default fuel grid svd b po) (Raise IndexError)) /\
      (po = false \/ wn <> [] /\ (forall A, svd_shapes A (svd A)) ->
       exists s, ends_with (fun fuel => mats_default fuel grid svd b po) (Ok (s, w)) /\ ms_points s = wn /\ ms_positive s = po /\
        matsubara_sampling svd (sb_of_basis b) wn po = Ok s /\
        (StronglySorted Z.le wn -> matsubara_sampling_at svd (sb_of_basis b) (IntArr wn) po = Ok s))
  end.
Proof. exact mats_default_ok. Qed.
Print Assumptions C77_matsubara_sampling.

(** The same for an augmented basis: of bosons, or with constants in frequency only. *)
Theorem C77_matsubara_augmented :
  forall compute grid svd a (po : bool) wn w, built compute (abasis a) -> search_grid grid ->
  ends_with (fun fuel => basis_matsubara fuel grid (abasis a) (Some (augsize a)) po) (Ok (wn, w)) ->
  (bstat (abasis a) <> "F"%string \/ (forall f, In f (aaugs a) -> ~ tau_aug f)) ->
  po = false \/ wn <> [] /\ (forall A, svd_shapes A (svd A)) ->
  exists s, ends_with (fun fuel => mats_default_aug fuel grid svd a po) (Ok (s, w)) /\ ms_points s = wn /\ ms_positive s = po /\
    matsubara_sampling svd (sb_of_aug true a) wn po = Ok s /\
    (StronglySorted Z.le wn -> matsubara_sampling_at svd (sb_of_aug true a) (IntArr wn) po = Ok s).
Proof. exact mats_default_aug_ok. Qed.
Print Assumptions C77_matsubara_augmented.

Theorem C77_matsubara_augmented_fermions :
  forall compute grid svd a (po : bool) wn w, built compute (abasis a) -> search_grid grid ->
  ends_with (fun fuel => basis_matsubara fuel grid (abasis a) (Some (augsize a)) po) (Ok (wn, w)) ->
  bstat (abasis a) = "F"%string -> (exists f, In f (aaugs a) /\ tau_aug f) -> wn <> [] ->
  ends_with (fun fuel => mats_default_aug fuel grid svd a po) (Raise ValueError).
Proof. exact mats_default_aug_fermi. Qed.
Print Assumptions C77_matsubara_augmented_fermions.

(** The same for a DLR basis, unless a pole at zero meets the frequency zero. *)
Theorem C77_matsubara_dlr :
  forall compute grid svd svd' f d (po : bool) wn w, built compute (dl_basis d) -> dlr_built svd' d -> search_grid grid ->
  ends_with (fun fuel => basis_matsubara fuel grid (dl_basis d) None po) (Ok (wn, w)) ->
  (~ In 0 (dl_poles d) \/ ~ In 0%Z wn) ->
  po = false \/ wn <> [] /\ (forall A, svd_shapes A (svd A)) ->
  exists s, ends_with (fun fuel => mats_default_dlr fuel grid svd f d po) (Ok (s, w)) /\ ms_points s = wn /\ ms_positive s = po /\
    matsubara_sampling svd (sb_of_dlr f d) wn po = Ok s /\
    (StronglySorted Z.le wn -> matsubara_sampling_at svd (sb_of_dlr f d) (IntArr wn) po = Ok s).
Proof. exact mats_default_dlr_ok. Qed.
Print Assumptions C77_matsubara_dlr.

Theorem C77_matsubara_dlr_zero_pole :
  forall compute grid svd svd' f d (po : bool) wn w, built compute (dl_basis d) -> dlr_built svd' d ->
  ends_with (fun fuel => basis_matsubara fuel grid (dl_basis d) None po) (Ok (wn, w)) ->
  In 0 (dl_poles d) -> In 0%Z wn ->
  ends_with (fun fuel => mats_default_dlr fuel grid svd f d po) (Raise ValueError).
Proof. exact mats_default_dlr_nan. Qed.
Print Assumptions C77_matsubara_dlr_zero_pole.

Example C77_hypotheses_met :
  (exists b, built no_compute b /\ tau_points_exist b (bsize b)) /\
  (exists a, built no_compute (abasis a) /\ tau_points_exist (abasis a) (augsize a) /\ length (aaugs a) = 1%nat /\
     Forall (fun f => tau_aug f /\ aug_beta f = bbeta (abasis a)) (aaugs a)) /\
  (exists svd d, built no_compute (dl_basis d) /\ dlr_built svd d /\ (exists w, In w (dl_poles d) /\ w <> 0) /\
     tau_points_exist (dl_basis d) (bsize (dl_basis d))).
Proof.
  destruct (ex3_basis "B"%string ltac:(auto)) as (b & Hb & Hs & Hbe & Hr & Hsz & Hl). split; [|split].
  - exists b. split; [exact Hb|]. exact (ex3_times b Hr Hsz).
  - exact ex4_aug.
  - exact ex3_dlr.
Qed.

(** C78: FiniteTempBasisSet(beta, wmax, eps, sve_result). *)
Theorem C78_set :
  forall compute svd grid beta wmax eps sve f b outf outb, 0 < wmax ->
  finite_temp_bases compute beta wmax eps sve = Ok (f, b) -> sve_ok (bsve f) -> search_grid grid ->
  tau_points_exist f (bsize f) ->
  ends_with (fun fuel => basis_matsubara fuel grid f None false) outf ->
  ends_with (fun fuel => basis_matsubara fuel grid b None false) outb ->
  match outf, outb with
  | Raise e, _ | _, Raise e =>
      ends_with (fun fuel => basis_set_init compute svd (fun x => x) fuel grid beta wmax eps sve) (Raise e)
  | Ok (wnf, _), Ok (wnb, _) =>
      exists s, ends_with (fun fuel => basis_set_init compute svd (fun x => x) fuel grid beta wmax eps sve) (Ok s) /\
        set_basis_f s = f /\ set_basis_b s = b /\
        set_beta s = beta /\ set_wmax s = wmax /\ set_lambda s = beta * wmax /\ set_accuracy s = bacc f /\ set_accuracy s = bacc b /\
        set_sve s = bsve f /\ set_sve s = bsve b /\
        good_times beta (set_tau s) /\ ts_points (set_tau_b s) = set_tau s /\
        tau_sampling svd (sb_of_basis f) (set_tau s) = Ok (set_tau_f s) /\
        tau_sampling svd (sb_of_basis b) (set_tau s) = Ok (set_tau_b s) /\
        ts_matrix (set_tau_f s) = ts_matrix (set_tau_b s) /\
        set_wn_points_f s = wnf /\ matsubara_sampling svd (sb_of_basis f) wnf false = Ok (set_wn_f s) /\
        set_wn_points_b s = wnb /\ matsubara_sampling svd (sb_of_basis b) wnb false = Ok (set_wn_b s) /\
        Forall (fun n => Z.odd n = true) wnf /\ symmetric wnf /\ Forall (fun n => Z.even n = true) wnb /\ symmetric wnb
  end.
Proof. exact set_holds. Qed.
Print Assumptions C78_set.

(** With functions to spare there is such a set. *)
Theorem C78_exists :
  forall compute svd grid beta wmax eps sve f b, 0 < wmax ->
  finite_temp_bases compute beta wmax eps sve = Ok (f, b) -> sve_ok (bsve f) -> search_grid grid ->
  tau_points_exist f (bsize f) ->
  (forall l, (bsize f <= l <= bsize f + 1)%nat -> (l < length (ss (bsve f)))%nat /\ definite (bsve f) l) ->
  exists s, ends_with (fun fuel => basis_set_init compute svd (fun x => x) fuel grid beta wmax eps sve) (Ok s) /\
    StronglySorted Z.lt (set_wn_points_f s) /\ StronglySorted Z.lt (set_wn_points_b s).
Proof. exact set_exists. Qed.
Print Assumptions C78_exists.

(** Arguments that the pair of bases refuses, the set refuses. *)
Theorem C78_refused :
  forall compute svd rnd grid beta wmax eps sve e, finite_temp_bases compute beta wmax eps sve = Raise e ->
  forall fuel, basis_set_init compute svd rnd fuel grid beta wmax eps sve = Some (Raise e).
Proof. exact set_raises. Qed.
Print Assumptions C78_refused.

Example C78_hypotheses_met :
  exists f b, finite_temp_bases no_compute 2 3 None (Some ex_sve3) = Ok (f, b) /\ sve_ok (bsve f) /\
    tau_points_exist f (bsize f) /\
    forall l, (bsize f <= l <= bsize f + 1)%nat -> (l < length (ss (bsve f)))%nat /\ definite (bsve f) l.
Proof.
  destruct ex3_pair as (f & b & H & Hr & Hs). exists f, b. split; [exact H|]. split; [rewrite Hr; exact ex_sve3_ok|].
  split; [exact (ex3_times f Hr Hs)|]. intros l Hl. rewrite Hs in Hl. rewrite Hr. cbn [ex_sve3 ss length].
  split; [lia|]. apply ex3_definite. lia.
Qed.
