(** sve.compute with the libraries of svd.compute. *)
From Coq Require Import String ZArith Arith Bool Reals Lra Lia Psatz.
From Coquelicot Require Import Coquelicot.
From Coq Require Import List Sorting.Sorted.
From Verif.Model Require Import Base Util Num Gauss Poly FT SVE Basis Kernel NDArray Sampling Decomp Compute Whole Link.
From Verif.Spec Require Import SGauss SPoly SFT SSVE SBasis SKernel SSampling SDecomp SCompute SSingular SWhole SNear SLink.
From Verif.Proofs Require Import BaseFacts SumFacts NDFacts GaussFacts FTFacts DLRProps ComputeNodes KernelSegs HintFacts ComputeNonempty ComputeSampling ComputeFull ComputeCase ComputeWhole DecompSplit SvdRun WholeFacts WholeBasis NearBest.
Import ListNotations.
Open Scope R_scope.
Notation length := List.length.

Notation erase := without_warnings.

(** * One matrix *)
Lemma one_matrix L t A hint strategy r w : Decomp.svd_compute L t (as_mat A) (Some hint) strategy = Ok (r, w) ->
  exists alg w', svd_dispatch (installed (xprec_svd L)) (installed (lapack_gejsv L)) t strategy = Ok (alg, w') /\
    library_run L alg A (Z.min (Z.min (Z.of_nat (length A)) (Z.of_nat (match A with [] => 0%nat | row :: _ => length row end))) hint) = as_usv r.
Proof.
  unfold Decomp.svd_compute, svd_dispatch. cbv zeta. cbn [as_mat mr mc]. intros H.
  set (k := Z.min _ hint) in *. 
  assert (N : (if String.eqb strategy "fast" then Ok (interp_svd L (as_mat A) k, [])
      else if String.eqb strategy "default" then Ok (default_svd (numpy_svd L) (as_mat A), [])
      else if String.eqb strategy "accurate" then
        match lapack_gejsv L with
        | None => Ok (default_svd (numpy_svd L) (as_mat A), [NoJacobi])
        | Some g => gejsv_svd g (as_mat A) "F"
        end
      else Raise ValueError) = Ok (r, w) ->
    exists alg w', (if String.eqb strategy "fast" then Ok (AlgID, false)
      else if String.eqb strategy "default" then Ok (AlgLapack, false)
      else if String.eqb strategy "accurate" then
        (if installed (lapack_gejsv L) then Ok (AlgJacobi, false) else Ok (AlgLapack, true))
      else Raise ValueError) = Ok (alg, w') /\ library_run L alg A k = as_usv r).
  { clear H. unfold library_run. destruct (String.eqb strategy "fast"); [intros [= <- <-]; do 2 eexists; split; reflexivity|]. destruct (String.eqb strategy "default"); [intros [= <- <-]; do 2 eexists; split; reflexivity|].
    destruct (String.eqb strategy "accurate"); [|discriminate]. destruct (lapack_gejsv L) as [g|]; [|intros [= <- <-]; do 2 eexists; split; reflexivity].
    intros H. exists AlgJacobi, false. split; [reflexivity|]. cbn [installed]. unfold gejsv_svd, gejsv_tall in H. cbn [gejsv_job find fst String.eqb Ascii.eqb Bool.eqb bind] in H.
    destruct (mr (as_mat A) <? mc (as_mat A))%nat; cbn [bind] in H.
    - destruct (g_info (g (transposed (as_mat A)) 2%nat) <? 0)%Z; [discriminate|]. cbn [bind] in H. injection H as <- _. reflexivity.
    - destruct (g_info (g (as_mat A) 2%nat) <? 0)%Z; [discriminate|]. injection H as <- _. reflexivity. }
  destruct (xprec_svd L) as [x|] eqn:Ex; [|exact (N H)]. destruct t; try exact (N H).
  cbn in H. injection H as <- _. exists AlgDDouble, false. split; [reflexivity|]. cbn. rewrite Ex. reflexivity.
Qed.

Lemma library_raises L t A hint strategy e : Decomp.svd_compute L t (as_mat A) (Some hint) strategy = Raise e ->
  jacobi_accepts L ->
  svd_dispatch (installed (xprec_svd L)) (installed (lapack_gejsv L)) t strategy = Raise e.
Proof.
  intros H Hg. apply svd_raises in H as (-> & Hx & [Hs|(-> & g & Eg & Hi)]); [|specialize (Hg g (tall (as_mat A)) Eg); lia].
  assert (N : (if String.eqb strategy "fast" then Ok (AlgID, false)
      else if String.eqb strategy "default" then Ok (AlgLapack, false)
      else if String.eqb strategy "accurate" then
        (if installed (lapack_gejsv L) then Ok (AlgJacobi, false) else Ok (AlgLapack, true))
      else Raise ValueError) = Raise ValueError).
  { destruct (String.eqb_spec strategy "fast"); [subst; exfalso; apply Hs; cbn; auto|]. destruct (String.eqb_spec strategy "default"); [subst; exfalso; apply Hs; cbn; auto|].
    destruct (String.eqb_spec strategy "accurate"); [subst; exfalso; apply Hs; cbn; auto|]. reflexivity. }
  unfold svd_dispatch. destruct (xprec_svd L); cbn [installed]; [|exact N]. destruct t; try exact N. destruct Hx; congruence.
Qed.

(** * The whole computation *)
Lemma full_hint leg f K safe e ng S : sampling_init leg (full_kern f K safe) e ng = Ok S -> s_hint S = hint_nsvals K.
Proof.
  unfold sampling_init. cbn [full_kern sk_segs_x sk_segs_y bind]. destruct (leg _); [|discriminate]. cbn [bind].
  destruct (piecewise _ _); [|discriminate]. cbn [bind]. destruct (piecewise _ _); [|discriminate]. cbn [bind]. intros [= <-]. reflexivity.
Qed.
Lemma reduced_hint leg f K sg Kr safe e ng S : get_symmetrized K sg = Ok Kr -> sampling_init leg (reduced_kern f Kr safe) e ng = Ok S -> s_hint S = reduced_nsvals K.
Proof.
  intros H1 H2. assert (Ek : rinner Kr = K).
  { unfold get_symmetrized, reduced_init in H1. destruct (Reqb sg (-1)), (Reqb (Rabs sg) 1); try discriminate; injection H1 as <-; reflexivity. }
  unfold sampling_init in H2. destruct (leg _); [|discriminate]. cbn [bind] in H2. destruct (sk_segs_x _); [|discriminate]. cbn [bind] in H2.
  destruct (sk_segs_y _); [|discriminate]. cbn [bind] in H2. destruct (piecewise _ _); [|discriminate]. cbn [bind] in H2. destruct (piecewise _ _); [|discriminate]. cbn [bind] in H2.
  injection H2 as <-. cbn. rewrite Ek. reflexivity.
Qed.
Lemma both_hints leg f K s1 s2 Ke Ko safe e ng even odd : get_symmetrized K s1 = Ok Ke -> sampling_init leg (reduced_kern f Ke safe) e ng = Ok even ->
  get_symmetrized K s2 = Ok Ko -> sampling_init leg (reduced_kern f Ko safe) e ng = Ok odd -> Z.max (s_hint even) (s_hint odd) = reduced_nsvals K.
Proof. intros H1 H2 H3 H4. rewrite (reduced_hint _ _ _ _ _ _ _ _ _ H1 H2), (reduced_hint _ _ _ _ _ _ _ _ _ H3 H4). apply Z.max_id. Qed.

Section Whole.
Variables (L : libs) (dd : R) (f : tfun).
Variable legendre : dtype -> nat -> res rule.
Variable argsort : list R -> list nat.
Notation hx := (installed (xprec_svd L)).
Notation hg := (installed (lapack_gejsv L)).

(** The same with any algorithms that do what the libraries do. *)
Lemma warns_compute run K eps cutoff n_sv ng work st svds o w safe t strategy low :
  safe_eps hx dd eps work svds = (safe, t, strategy, low) ->
  (forall A hint r w alg b, hint = match st with Some SampleStrat => hint_nsvals K | _ => reduced_nsvals K end ->
     Decomp.svd_compute L t (as_mat A) (Some hint) strategy = Ok (r, w) -> svd_dispatch hx hg t strategy = Ok (alg, b) ->
     run alg A (Z.min (Z.min (Z.of_nat (length A)) (Z.of_nat (match A with [] => 0%nat | row :: _ => length row end))) hint) = as_usv r) ->
  compute_warns L dd f legendre argsort K eps cutoff n_sv ng work st svds = Ok (o, w) ->
  compute hx hg dd f legendre run argsort K eps cutoff n_sv ng work st svds = Ok o.
Proof.
  intros Hs Hrun. unfold compute_warns, compute. rewrite Hs.
  assert (D : forall A hint b v, hint = match st with Some SampleStrat => hint_nsvals K | _ => reduced_nsvals K end ->
    decompose L t hint strategy A = Ok (b, v) -> svd_compute hx hg run t A hint strategy = Ok b).
  { intros A hint b v Hh H. unfold decompose in H. destruct (Decomp.svd_compute L t (as_mat A) (Some hint) strategy) as [[r u]|] eqn:E; [|discriminate]. cbn [bind] in H.
    injection H as <- _. destruct (one_matrix _ _ _ _ _ _ _ E) as (alg & w' & Ed & _). unfold svd_compute. rewrite Ed. cbn [bind]. rewrite (Hrun _ _ _ _ _ _ Hh E Ed). reflexivity. }
  intros H.
  destruct st as [[|]|].
  - destruct (sampling_init _ _ _ _) as [S|] eqn:ES; [|discriminate]. cbn [bind] in *. destruct (sampling_matrix S) as [A|]; [|discriminate]. cbn [bind] in *.
    destruct (decompose L t (s_hint S) strategy A) as [[b v]|] eqn:Eb; [|discriminate]. cbn [bind] in *. rewrite (D _ _ _ _ (full_hint _ _ _ _ _ _ _ ES) Eb). cbn [bind].
    destruct (truncate [b] _ n_sv) as [cut|]; [|discriminate]. cbn [bind] in *. destruct cut as [|b' [|]]; try discriminate.
    destruct (sampling_post S b') as [x|]; [|discriminate]. cbn [bind] in *. congruence.
  - destruct (get_symmetrized K 1) as [Ke|] eqn:EKe; [|discriminate]. cbn [bind] in *. destruct (sampling_init (legendre t) (reduced_kern f Ke safe) _ _) as [even|] eqn:EE; [|discriminate]. cbn [bind] in *.
    destruct (get_symmetrized K (-1)) as [Ko|] eqn:EKo; [|discriminate]. cbn [bind] in *. destruct (sampling_init (legendre t) (reduced_kern f Ko safe) _ _) as [odd|] eqn:EO; [|discriminate]. cbn [bind] in *.
    cbv zeta in *. pose proof (both_hints _ _ _ _ _ _ _ _ _ _ _ _ EKe EE EKo EO) as Hh. destruct (sampling_matrix even) as [Ae|]; [|discriminate]. cbn [bind] in *.
    destruct (decompose L t _ strategy Ae) as [[be we]|] eqn:Ee; [|discriminate]. cbn [bind] in *. rewrite (D _ _ _ _ Hh Ee). cbn [bind].
    destruct (sampling_matrix odd) as [Ao|]; [|discriminate]. cbn [bind] in *.
    destruct (decompose L t _ strategy Ao) as [[bo wo]|] eqn:Eo; [|discriminate]. cbn [bind] in *. rewrite (D _ _ _ _ Hh Eo). cbn [bind].
    destruct (truncate [be; bo] _ n_sv) as [cut|]; [|discriminate]. cbn [bind] in *. destruct cut as [|be' [|bo' [|]]]; try discriminate.
    destruct (sampling_post even be') as [re|]; [|discriminate]. cbn [bind] in *. destruct (sampling_post odd bo') as [ro|]; [|discriminate]. cbn [bind] in *.
    destruct re, ro; try congruence. destruct (merge _ _ _ _ _ _); [|discriminate]. cbn [bind] in *. congruence.
  - destruct (get_symmetrized K 1) as [Ke|] eqn:EKe; [|discriminate]. cbn [bind] in *. destruct (sampling_init (legendre t) (reduced_kern f Ke safe) _ _) as [even|] eqn:EE; [|discriminate]. cbn [bind] in *.
    destruct (get_symmetrized K (-1)) as [Ko|] eqn:EKo; [|discriminate]. cbn [bind] in *. destruct (sampling_init (legendre t) (reduced_kern f Ko safe) _ _) as [odd|] eqn:EO; [|discriminate]. cbn [bind] in *.
    cbv zeta in *. pose proof (both_hints _ _ _ _ _ _ _ _ _ _ _ _ EKe EE EKo EO) as Hh. destruct (sampling_matrix even) as [Ae|]; [|discriminate]. cbn [bind] in *.
    destruct (decompose L t _ strategy Ae) as [[be we]|] eqn:Ee; [|discriminate]. cbn [bind] in *. rewrite (D _ _ _ _ Hh Ee). cbn [bind].
    destruct (sampling_matrix odd) as [Ao|]; [|discriminate]. cbn [bind] in *.
    destruct (decompose L t _ strategy Ao) as [[bo wo]|] eqn:Eo; [|discriminate]. cbn [bind] in *. rewrite (D _ _ _ _ Hh Eo). cbn [bind].
    destruct (truncate [be; bo] _ n_sv) as [cut|]; [|discriminate]. cbn [bind] in *. destruct cut as [|be' [|bo' [|]]]; try discriminate.
    destruct (sampling_post even be') as [re|]; [|discriminate]. cbn [bind] in *. destruct (sampling_post odd bo') as [ro|]; [|discriminate]. cbn [bind] in *.
    destruct re, ro; try congruence. destruct (merge _ _ _ _ _ _); [|discriminate]. cbn [bind] in *. congruence.
Qed.

Lemma warns_library K eps cutoff n_sv ng work st svds o w :
  compute_warns L dd f legendre argsort K eps cutoff n_sv ng work st svds = Ok (o, w) ->
  compute hx hg dd f legendre (library_run L) argsort K eps cutoff n_sv ng work st svds = Ok o.
Proof.
  destruct (safe_eps hx dd eps work svds) as [[[safe t] strategy] low] eqn:Es. apply (warns_compute _ _ _ _ _ _ _ _ _ _ _ _ _ _ _ Es).
  intros A hint r u alg b _ Hr Hd. destruct (one_matrix _ _ _ _ _ _ _ Hr) as (alg' & w' & Hd' & Hl). assert (alg' = alg) as -> by congruence. exact Hl.
Qed.

(** Unless the Jacobi method reports a wrong argument, the exceptions are the same too. *)
Lemma decompose_erase t hint strategy A : jacobi_accepts L ->
  erase (decompose L t hint strategy A) = svd_compute hx hg (library_run L) t A hint strategy.
Proof.
  intros Hg. unfold decompose, svd_compute. cbv zeta. destruct (Decomp.svd_compute L t (as_mat A) (Some hint) strategy) as [[r w]|e] eqn:E; cbn [bind without_warnings].
  - destruct (one_matrix _ _ _ _ _ _ _ E) as (alg & w' & Ed & Er). rewrite Ed. cbn [bind]. rewrite Er. reflexivity.
  - rewrite (library_raises _ _ _ _ _ _ E Hg). reflexivity.
Qed.

Lemma erase_gen run K eps cutoff n_sv ng work st svds :
  (forall safe t strategy low, safe_eps hx dd eps work svds = (safe, t, strategy, low) ->
   forall hint A, erase (decompose L t hint strategy A) = svd_compute hx hg run t A hint strategy) ->
  erase (compute_warns L dd f legendre argsort K eps cutoff n_sv ng work st svds) =
  compute hx hg dd f legendre run argsort K eps cutoff n_sv ng work st svds.
Proof.
  intros Hg. unfold compute_warns, compute. destruct (safe_eps hx dd eps work svds) as [[[safe t] strategy] low].
  assert (D := Hg safe t strategy low eq_refl). cbv zeta.
  assert (C : erase (do Ke <- get_symmetrized K 1;
      do even <- sampling_init (legendre t) (reduced_kern f Ke safe) safe ng;
      do Ko <- get_symmetrized K (-1);
      do odd <- sampling_init (legendre t) (reduced_kern f Ko safe) safe ng;
      do Ae <- sampling_matrix even;
      do ' (be, we) <- decompose L t (Z.max (s_hint even) (s_hint odd)) strategy Ae;
      do Ao <- sampling_matrix odd;
      do ' (bo, wo) <- decompose L t (Z.max (s_hint even) (s_hint odd)) strategy Ao;
      do cut <- truncate [be; bo] match cutoff with None => Fin (default_cutoff dd t) | Some c => c end n_sv;
      match cut with
      | [be; bo] =>
          do re <- sampling_post even be;
          do ro <- sampling_post odd bo;
          match re, ro with
          | Some re, Some ro => do r <- merge argsort safe (segments_x K) (segments_y K) re ro; Ok (Some r, (if low then [LowAccuracy] else []) ++ we ++ wo)
          | _, _ => Ok (None, (if low then [LowAccuracy] else []) ++ we ++ wo)
          end
      | _ => Raise ValueError
      end) = 
    (do Ke <- get_symmetrized K 1;
      do even <- sampling_init (legendre t) (reduced_kern f Ke safe) safe ng;
      do Ko <- get_symmetrized K (-1);
      do odd <- sampling_init (legendre t) (reduced_kern f Ko safe) safe ng;
      do Ae <- sampling_matrix even;
      do be <- svd_compute hx hg run t Ae (Z.max (s_hint even) (s_hint odd)) strategy;
      do Ao <- sampling_matrix odd;
      do bo <- svd_compute hx hg run t Ao (Z.max (s_hint even) (s_hint odd)) strategy;
      do cut <- truncate [be; bo] match cutoff with None => Fin (default_cutoff dd t) | Some c => c end n_sv;
      match cut with
      | [be; bo] =>
          do re <- sampling_post even be;
          do ro <- sampling_post odd bo;
          match re, ro with
          | Some re, Some ro => do r <- merge argsort safe (segments_x K) (segments_y K) re ro; Ok (Some r)
          | _, _ => Ok None
          end
      | _ => Raise ValueError
      end)).
  { destruct (get_symmetrized K 1) as [Ke|]; [|reflexivity]. cbn [bind]. destruct (sampling_init (legendre t) (reduced_kern f Ke safe) _ _) as [even|]; [|reflexivity]. cbn [bind].
    destruct (get_symmetrized K (-1)) as [Ko|]; [|reflexivity]. cbn [bind]. destruct (sampling_init (legendre t) (reduced_kern f Ko safe) _ _) as [odd|]; [|reflexivity]. cbn [bind].
    destruct (sampling_matrix even) as [Ae|]; [|reflexivity]. cbn [bind]. rewrite <- D.
    destruct (decompose L t _ strategy Ae) as [[be we]|]; [|reflexivity]. cbn [bind without_warnings].
    destruct (sampling_matrix odd) as [Ao|]; [|reflexivity]. cbn [bind]. rewrite <- D.
    destruct (decompose L t _ strategy Ao) as [[bo wo]|]; [|reflexivity]. cbn [bind without_warnings].
    destruct (truncate [be; bo] _ n_sv) as [cut|]; [|reflexivity]. cbn [bind]. destruct cut as [|be' [|bo' [|]]]; try reflexivity.
    destruct (sampling_post even be') as [re|]; [|reflexivity]. cbn [bind]. destruct (sampling_post odd bo') as [ro|]; [|reflexivity]. cbn [bind].
    destruct re, ro; try reflexivity. destruct (merge _ _ _ _ _ _); reflexivity. }
  destruct st as [[|]|]; [|exact C|exact C].
  destruct (sampling_init _ _ _ _) as [S|]; [|reflexivity]. cbn [bind]. destruct (sampling_matrix S) as [A|]; [|reflexivity]. cbn [bind]. rewrite <- D.
  destruct (decompose L t (s_hint S) strategy A) as [[b v]|]; [|reflexivity]. cbn [bind without_warnings].
  destruct (truncate [b] _ n_sv) as [cut|]; [|reflexivity]. cbn [bind]. destruct cut as [|b' [|]]; try reflexivity.
  destruct (sampling_post S b'); reflexivity.
Qed.

Lemma erase_library K eps cutoff n_sv ng work st svds : jacobi_accepts L ->
  erase (compute_warns L dd f legendre argsort K eps cutoff n_sv ng work st svds) =
  compute hx hg dd f legendre (library_run L) argsort K eps cutoff n_sv ng work st svds.
Proof. intros Hg. apply erase_gen. intros. apply decompose_erase. exact Hg. Qed.

(** * Warnings *)
Lemma warns_parts K eps cutoff n_sv ng work st svds o w safe t strategy low :
  safe_eps hx dd eps work svds = (safe, t, strategy, low) ->
  compute_warns L dd f legendre argsort K eps cutoff n_sv ng work st svds = Ok (o, w) ->
  (st = Some SampleStrat -> exists S A r v, sampling_init (legendre t) (full_kern f K safe) safe ng = Ok S /\ sampling_matrix S = Ok A /\ Decomp.svd_compute L t (as_mat A) (Some (hint_nsvals K)) strategy = Ok (r, v) /\
     w = (if low then [LowAccuracy] else []) ++ map InSvd v) /\
  (st <> Some SampleStrat -> exists Ke Ko even odd Ae Ao re ro ve vo,
     get_symmetrized K 1 = Ok Ke /\ get_symmetrized K (-1) = Ok Ko /\
     sampling_init (legendre t) (reduced_kern f Ke safe) safe ng = Ok even /\ sampling_init (legendre t) (reduced_kern f Ko safe) safe ng = Ok odd /\
     sampling_matrix even = Ok Ae /\ sampling_matrix odd = Ok Ao /\
     Decomp.svd_compute L t (as_mat Ae) (Some (reduced_nsvals K)) strategy = Ok (re, ve) /\
     Decomp.svd_compute L t (as_mat Ao) (Some (reduced_nsvals K)) strategy = Ok (ro, vo) /\
     w = (if low then [LowAccuracy] else []) ++ map InSvd ve ++ map InSvd vo).
Proof.
  intros Hs. unfold compute_warns. rewrite Hs. cbv zeta.
  assert (D : forall A hint b v, decompose L t hint strategy A = Ok (b, v) -> exists r u, Decomp.svd_compute L t (as_mat A) (Some hint) strategy = Ok (r, u) /\ b = as_usv r /\ v = map InSvd u).
  { intros A hint b v H. unfold decompose in H. destruct (Decomp.svd_compute L t (as_mat A) (Some hint) strategy) as [[r u]|] eqn:E; [|discriminate]. cbn [bind] in H.
    injection H as <- <-. eauto. }
  intros H. split; intros Hst.
  - rewrite Hst in H. destruct (sampling_init _ _ _ _) as [S|] eqn:ES; [|discriminate]. cbn [bind] in H. destruct (sampling_matrix S) as [A|] eqn:EA; [|discriminate]. cbn [bind] in H.
    destruct (decompose L t (s_hint S) strategy A) as [[b v]|] eqn:Eb; [|discriminate]. cbn [bind] in H. destruct (D _ _ _ _ Eb) as (r & u & Eu & -> & ->).
    destruct (truncate _ _ n_sv) as [cut|]; [|discriminate]. cbn [bind] in H. destruct cut as [|b' [|]]; try discriminate.
    destruct (sampling_post S b'); [|discriminate]. cbn [bind] in H. exists S, A, r, u. split; [exact ES || reflexivity|]. split; [exact EA|]. split; [rewrite <- (full_hint _ _ _ _ _ _ _ ES); exact Eu|congruence].
  - assert (H' : (do Ke <- get_symmetrized K 1;
      do even <- sampling_init (legendre t) (reduced_kern f Ke safe) safe ng;
      do Ko <- get_symmetrized K (-1);
      do odd <- sampling_init (legendre t) (reduced_kern f Ko safe) safe ng;
      do Ae <- sampling_matrix even;
      do ' (be, we) <- decompose L t (Z.max (s_hint even) (s_hint odd)) strategy Ae;
      do Ao <- sampling_matrix odd;
      do ' (bo, wo) <- decompose L t (Z.max (s_hint even) (s_hint odd)) strategy Ao;
      do cut <- truncate [be; bo] match cutoff with None => Fin (default_cutoff dd t) | Some c => c end n_sv;
      match cut with
      | [be; bo] =>
          do re <- sampling_post even be;
          do ro <- sampling_post odd bo;
          match re, ro with
          | Some re, Some ro => do r <- merge argsort safe (segments_x K) (segments_y K) re ro; Ok (Some r, (if low then [LowAccuracy] else []) ++ we ++ wo)
          | _, _ => Ok (None, (if low then [LowAccuracy] else []) ++ we ++ wo)
          end
      | _ => Raise ValueError
      end) = Ok (o, w)) by (destruct st as [[|]|]; [congruence|exact H|exact H]). clear H. rename H' into H.
    destruct (get_symmetrized K 1) as [Ke|] eqn:EKe; [|discriminate]. cbn [bind] in H. destruct (sampling_init (legendre t) (reduced_kern f Ke safe) _ _) as [even|] eqn:EE; [|discriminate]. cbn [bind] in H.
    destruct (get_symmetrized K (-1)) as [Ko|] eqn:EKo; [|discriminate]. cbn [bind] in H. destruct (sampling_init (legendre t) (reduced_kern f Ko safe) _ _) as [odd|] eqn:EO; [|discriminate]. cbn [bind] in H.
    rewrite (both_hints _ _ _ _ _ _ _ _ _ _ _ _ EKe EE EKo EO) in H.
    destruct (sampling_matrix even) as [Ae|] eqn:EAe; [|discriminate]. cbn [bind] in H.
    destruct (decompose L t _ strategy Ae) as [[be we]|] eqn:Ee; [|discriminate]. cbn [bind] in H. destruct (D _ _ _ _ Ee) as (re & ue & Eue & -> & ->).
    destruct (sampling_matrix odd) as [Ao|] eqn:EAo; [|discriminate]. cbn [bind] in H.
    destruct (decompose L t _ strategy Ao) as [[bo wo]|] eqn:Eo; [|discriminate]. cbn [bind] in H. destruct (D _ _ _ _ Eo) as (ro & uo & Euo & -> & ->).
    destruct (truncate _ _ n_sv) as [cut|]; [|discriminate]. cbn [bind] in H. destruct cut as [|be' [|bo' [|]]]; try discriminate.
    destruct (sampling_post even be') as [x|]; [|discriminate]. cbn [bind] in H. destruct (sampling_post odd bo') as [y|]; [|discriminate]. cbn [bind] in H.
    exists Ke, Ko, even, odd, Ae, Ao, re, ro, ue, uo. repeat (split; [assumption || reflexivity|]). destruct x, y; try congruence. destruct (merge _ _ _ _ _ _); [|discriminate]. cbn [bind] in H. congruence.
Qed.
End Whole.

(** * The documented decomposition and the one of the expansion *)
Lemma real_sum n f g : (forall i, (i < n)%nat -> Im (f i) = 0) -> (forall i, (i < n)%nat -> Im (g i) = 0) ->
  csumn n (fun i => Cmult (f i) (g i)) = RtoC (sumn n (fun i => Re (f i) * Re (g i))).
Proof.
  intros Hf Hg. rewrite <- csumn_R. apply csumn_ext. intros i Hi. specialize (Hf i Hi). specialize (Hg i Hi).
  destruct (f i) as [a b], (g i) as [c d]. unfold Re, Im in *. cbn in *. subst. unfold Cmult, RtoC. cbn. f_equal; ring.
Qed.

Lemma columns_nth m k i : (k < mc m)%nat -> (i < mr m)%nat -> nth i (nth k (columns m) []) 0 = Re (me m i k).
Proof. intros Hk Hi. unfold columns. rewrite nth_map_seq by auto. rewrite nth_map_seq by auto. reflexivity. Qed.

Lemma columns_ortho m K u : mr u = m -> mc u = K -> real_entries u -> orthonormal_columns m K (me u) ->
  length (columns u) = K /\ Forall (fun c => length c = m) (columns u) /\ orthonormal_vectors (columns u).
Proof.
  intros Hr Hc Re Ho. assert (L : length (columns u) = K) by (unfold columns; rewrite map_length, seq_length; auto). split; [exact L|]. split.
  - apply Forall_map, Forall_forall. intros k _. rewrite map_length, seq_length. exact Hr.
  - intros a b Ha Hb. rewrite L in Ha, Hb.
    assert (E : forall k, (k < K)%nat -> length (nth k (columns u) []) = m).
    { intros k Hk. unfold columns. rewrite nth_map_seq by lia. rewrite map_length, seq_length. exact Hr. }
    rewrite (dot_sumn _ _ m) by (apply E; auto). specialize (Ho a b Ha Hb).
    rewrite (csumn_ext m _ (fun i => Cmult (me u i a) (me u i b))) in Ho.
    2:{ intros i Hi. f_equal. specialize (Re i a ltac:(lia) ltac:(lia)). destruct (me u i a) as [x y]. unfold Im in Re. cbn in Re. subst y. unfold Cconj. cbn. f_equal. ring. }
    rewrite real_sum in Ho by (intros; apply Re; lia).
    rewrite (sumn_ext m _ (fun i => Coquelicot.Complex.Re (me u i a) * Coquelicot.Complex.Re (me u i b))) by (intros i Hi; rewrite !columns_nth by lia; reflexivity).
    unfold delta in Ho. destruct (Nat.eqb a b); injection Ho as ->; reflexivity.
Qed.

Lemma documented_near A m n r err : rectangular m n A -> (0 < m)%nat -> (0 < n)%nat -> as_documented A r err ->
  near_svd m n A (as_usv r) (total_error m n err).
Proof.
  intros [HA1 HA2] Hm Hn ((U1 & U2 & V1 & V2 & OU & OV & Er) & RU & RV & Hs & Hp).
  assert (Em : mr (as_mat A) = m) by exact HA1.
  assert (En : mc (as_mat A) = n). { cbn. destruct A as [|row A]; [cbn in HA1; lia|]. inversion HA2; auto. }
  rewrite Em, En in *.
  assert (Pe : 0 <= err). { eapply Rle_trans; [apply Cmod_ge_0|exact (Er 0%nat 0%nat Hm Hn)]. }
  destruct (columns_ortho m (length (t_s r)) (t_u r) U1 U2 RU OU) as (A1 & A2 & A3). destruct (columns_ortho n (length (t_s r)) (t_v r) V1 V2 RV OV) as (B1 & B2 & B3).
  split; [apply Rmult_le_pos; [exact Pe|apply sqrt_pos]|]. split; [repeat (split; [assumption|]); assumption|]. split; [split; assumption|].
  assert (Ent : forall i j, (i < m)%nat -> (j < n)%nat -> Rsqr (ment A i j - usv_entry (as_usv r) i j) <= Rsqr err).
  { intros i j Hi Hj. specialize (Er i j Hi Hj).
    assert (Ep : product_T r i j = RtoC (usv_entry (as_usv r) i j)).
    { unfold product_T, usv_entry, as_usv. rewrite <- csumn_R. apply csumn_ext. intros k Hk.
      pose proof (RU i k ltac:(lia) ltac:(lia)) as Ru. pose proof (RV j k ltac:(lia) ltac:(lia)) as Rv. rewrite !columns_nth by lia.
      destruct (me (t_u r) i k) as [a b], (me (t_v r) j k) as [c d]. unfold Im, Re in *. cbn in *. subst. unfold Cmult, RtoC. cbn. f_equal; ring. }
    rewrite Ep in Er. change (me (as_mat A) i j) with (RtoC (ment A i j)) in Er. rewrite <- RtoC_minus, Cmod_R in Er.
    rewrite (Rsqr_abs (_ - _)). apply Rsqr_incr_1; auto. apply Rabs_pos. }
  unfold total_error. rewrite Rsqr_mult, Rsqr_sqrt by (apply Rmult_le_pos; apply pos_INR).
  eapply Rle_trans; [apply sumn_le; intros i Hi; apply sumn_le; intros j Hj; exact (Ent i j Hi Hj)|]. rewrite !sumn_const. right. ring.
Qed.

(** * Nearly best *)
Section Near.
Variables (L : libs) (dd : R) (f : tfun).
Variable legendre : dtype -> nat -> res rule.
Variable argsort : list R -> list nat.
Hypothesis Hleg : good_rules legendre.
Hypothesis Hsort : forall s, sorts s (argsort s).

(** What svd.compute does in this call. *)
Definition fixed_run (t : dtype) (hint : Z) (strategy : string) : svd_alg -> matrix -> Z -> usv := fun _ A _ =>
  match Decomp.svd_compute L t (as_mat A) (Some hint) strategy with Ok (r, _) => as_usv r | Raise _ => ([[]], [0], [[]]) end.

Lemma fixed_compute K eps cutoff n_sv ng work st svds o w safe t strategy low :
  safe_eps (installed (xprec_svd L)) dd eps work svds = (safe, t, strategy, low) ->
  compute_warns L dd f legendre argsort K eps cutoff n_sv ng work st svds = Ok (o, w) ->
  compute (installed (xprec_svd L)) (installed (lapack_gejsv L)) dd f legendre
    (fixed_run t (match st with Some SampleStrat => hint_nsvals K | _ => reduced_nsvals K end) strategy) argsort K eps cutoff n_sv ng work st svds = Ok o.
Proof.
  intros Hs Hc. refine (warns_compute L dd f legendre argsort _ K eps cutoff n_sv ng work st svds o w safe t strategy low Hs _ Hc).
  intros A hint r u alg b -> Hr _. unfold fixed_run. rewrite Hr. reflexivity.
Qed.

Lemma weighted_nodes n q segs g : gauss_ok n q -> edges_ok segs -> piecewise q segs = Ok g -> length (rx g) = length (rw g) /\ (0 < length (rx g))%nat.
Proof.
  intros Hq He Hg. destruct (node_lengths n q segs g Hq He Hg) as [L1 L2]. destruct He as [He _]. destruct Hq as [Hn _]. split; [congruence|]. rewrite L1. apply Nat.mul_pos_pos; lia.
Qed.

Lemma link_centro K eps cutoff n_sv ng work st svds r w safe t strategy low :
  safe_eps (installed (xprec_svd L)) dd eps work svds = (safe, t, strategy, low) ->
  compute_warns L dd f legendre argsort K eps cutoff n_sv ng work st svds = Ok (Some r, w) -> st <> Some SampleStrat ->
  forall k, tfun_ok f -> 0 < k_lambda K -> (forall x y, -1 <= x <= 1 -> -1 <= y <= 1 -> has_value f K x y (k x y)) ->
  exists n q gx gy GX GY re we ro wo,
    n = match ng with None => hint_ngauss safe | Some m => m end /\ legendre t n = Ok q /\
    piecewise q (half (segments_x K)) = Ok gx /\ piecewise q (half (segments_y K)) = Ok gy /\
    piecewise q (segments_x K) = Ok GX /\ piecewise q (segments_y K) = Ok GY /\
    let Ae := weighted (fun x y => k x y + k x (- y)) gx gy in
    let Ao := weighted (fun x y => k x y - k x (- y)) gx gy in
    Decomp.svd_compute L t (as_mat Ae) (Some (reduced_nsvals K)) strategy = Ok (re, we) /\
    Decomp.svd_compute L t (as_mat Ao) (Some (reduced_nsvals K)) strategy = Ok (ro, wo) /\
    forall ee eo, as_documented Ae re ee -> as_documented Ao ro eo ->
    near_best GX GY k r (sqrt (Rsqr (total_error (length (rx gx)) (length (rx gy)) ee) + Rsqr (total_error (length (rx gx)) (length (rx gy)) eo)))
      (sumsq (t_s re) + sumsq (t_s ro)).
Proof.
  intros Hs Hc Hst k Hf Hl Hk. pose proof (fixed_compute _ _ _ _ _ _ _ _ _ _ _ _ _ _ Hs Hc) as Hc'.
  replace (match st with Some SampleStrat => hint_nsvals K | _ => reduced_nsvals K end) with (reduced_nsvals K) in Hc' by (destruct st as [[|]|]; congruence).
  destruct (near_centro_of _ _ _ _ _ _ _ Hleg Hsort _ _ _ _ _ _ _ _ _ Hc' Hst k Hf Hl Hk) as
    (t' & n & q & gx & gy & GX & GY & alge & he & algo & ho & H1 & H2 & H3 & H4 & H5 & H6 & T & H7). cbv zeta in T, H7.
  destruct (T _ _ _ _ Hs) as (<- & En & Te & To).
  destruct (proj2 (warns_parts L dd f legendre argsort _ _ _ _ _ _ _ _ _ _ _ _ _ _ Hs Hc) Hst) as (Ke & Ko & even & odd & Ae & Ao & re & ro & ve & vo & P1 & P2 & P3 & P4 & P5 & P6 & P7 & P8 & _).
  pose proof (Te _ _ P1 P3) as Q1. rewrite P5 in Q1. injection Q1 as ->. pose proof (To _ _ P2 P4) as Q2. rewrite P6 in Q2. injection Q2 as ->.
  exists n, q, gx, gy, GX, GY, re, ve, ro, vo. do 6 (split; [assumption|]). cbv zeta. split; [exact P7|]. split; [exact P8|]. intros ee eo De Do.
  destruct (Hleg _ _ _ H1) as [Gq _]. destruct (segments_valid K) as [Vx Vy].
  destruct (weighted_nodes _ _ _ _ Gq (proj1 (half_edges_of _ Vx)) H3) as [X1 X2]. destruct (weighted_nodes _ _ _ _ Gq (proj1 (half_edges_of _ Vy)) H4) as [Y1 Y2].
  apply (documented_near _ _ _ _ _ (weighted_rectangular _ _ _ X1 Y1) X2 Y2) in De, Do.
  unfold fixed_run in H7. rewrite P7, P8 in H7. exact (H7 _ _ De Do).
Qed.

Lemma link_sample K eps cutoff n_sv ng work svds r w safe t strategy low :
  safe_eps (installed (xprec_svd L)) dd eps work svds = (safe, t, strategy, low) ->
  compute_warns L dd f legendre argsort K eps cutoff n_sv ng work (Some SampleStrat) svds = Ok (Some r, w) ->
  forall k, (forall x y, -1 <= x <= 1 -> -1 <= y <= 1 -> has_value f K x y (k x y)) ->
  exists n q GX GY o wo,
    n = match ng with None => hint_ngauss safe | Some m => m end /\ legendre t n = Ok q /\
    piecewise q (segments_x K) = Ok GX /\ piecewise q (segments_y K) = Ok GY /\
    let A := weighted k GX GY in
    Decomp.svd_compute L t (as_mat A) (Some (hint_nsvals K)) strategy = Ok (o, wo) /\
    forall err, as_documented A o err -> near_best GX GY k r (total_error (length (rx GX)) (length (rx GY)) err) (sumsq (t_s o)).
Proof.
  intros Hs Hc k Hk. pose proof (fixed_compute _ _ _ _ _ _ _ _ _ _ _ _ _ _ Hs Hc) as Hc'. cbv iota in Hc'.
  destruct (near_sample_of _ _ _ _ _ _ _ Hleg _ _ _ _ _ _ _ _ Hc' k Hk) as (t' & n & q & GX & GY & alg & h & H1 & H2 & H5 & H6 & T & H7). cbv zeta in T, H7.
  destruct (T _ _ _ _ Hs) as (<- & En & Te).
  destruct (proj1 (warns_parts L dd f legendre argsort _ _ _ _ _ _ _ _ _ _ _ _ _ _ Hs Hc) eq_refl) as (S & A & o & v & P1 & P2 & P3 & _).
  pose proof (Te _ P1) as Q1. rewrite P2 in Q1. injection Q1 as ->.
  exists n, q, GX, GY, o, v. do 4 (split; [assumption|]). cbv zeta. split; [exact P3|]. intros err De.
  destruct (Hleg _ _ _ H1) as [Gq _]. destruct (segments_valid K) as [Vx Vy].
  destruct (weighted_nodes _ _ _ _ Gq (proj1 (full_edges _ Vx)) H5) as [X1 X2]. destruct (weighted_nodes _ _ _ _ Gq (proj1 (full_edges _ Vy)) H6) as [Y1 Y2].
  apply (documented_near _ _ _ _ _ (weighted_rectangular _ _ _ X1 Y1) X2 Y2) in De.
  unfold fixed_run in H7. rewrite P3 in H7. exact (H7 _ De).
Qed.

(** The libraries return at least one value, in order. *)
Hypothesis Hshape : returns_values L.

Lemma fixed_shaped t hint strategy : (0 < hint)%Z -> svd_shaped (fixed_run t hint strategy).
Proof.
  intros Hh alg A h m n HA Hm Hn _. unfold fixed_run. destruct (Decomp.svd_compute L t (as_mat A) (Some hint) strategy) as [[r w]|] eqn:E.
  - exact (Hshape _ _ _ _ _ _ _ _ HA Hm Hn Hh E).
  - repeat (split; [reflexivity|]). split; [discriminate|]. split; [constructor; constructor|]. constructor; [lra|constructor].
Qed.

Lemma hints_positive K (st : option strat) : (0 < match st with Some SampleStrat => hint_nsvals K | _ => reduced_nsvals K end)%Z.
Proof.
  pose proof (nsvals_hint K). assert (0 < reduced_nsvals K)%Z by (unfold reduced_nsvals; apply Z.div_str_pos; lia). destruct st as [[|]|]; lia.
Qed.

Section Basis.
Variables (stat : string) (beta wmax : R) (eps' : option R) (ms : option pynum) (KO : option kernel).
Variable c : kern -> option R -> res sve_result.
Let K := used_kernel (beta * wmax) KO.
Variables (eps cutoff : option xr) (n_sv : option pynum) (ng : option nat) (work : option dtype) (st : option strat) (svds : option string) (r : sve_result) (b : basis).
Variables (w : list sve_warning) (safe : R) (t : dtype) (strategy : string) (low : bool).
Hypothesis Hs : safe_eps (installed (xprec_svd L)) dd eps work svds = (safe, t, strategy, low).
Hypothesis Hc : compute_warns L dd f legendre argsort K eps cutoff n_sv ng work st svds = Ok (Some r, w).
Hypothesis Hi : basis_init c stat beta wmax eps' ms (option_map kern_of KO) (Some r) = Ok b.
Hypothesis Hw : 0 < wmax.
Variable k : R -> R -> R.

Lemma basis_near q n GX GY d all : gauss_ok n q -> piecewise q (segments_x K) = Ok GX -> piecewise q (segments_y K) = Ok GY -> near_best GX GY k r d all ->
  near_best_of_its_size (reseat GX 0 beta) (reseat GY (- wmax) wmax) (in_physical k (k_ypower K) beta wmax) b
    (physical_factor beta wmax (k_ypower K) * d) (Rsqr (physical_factor beta wmax (k_ypower K)) * all).
Proof.
  intros Gq H5 H6 HN. pose proof (fixed_compute _ _ _ _ _ _ _ _ _ _ _ _ _ _ Hs Hc) as Hc'.
  destruct (from_parts _ _ _ _ _ _ _ Hleg Hsort (fixed_shaped _ _ _ (hints_positive K st)) _ _ _ _ _ _ _ _ _ _ _ _ _ _ _ _ Hc' Hi Hw) as (Hb & Er & E1 & E2 & E3 & E4 & Hl).
  destruct (valid_of K Hl) as [Vx Vy].
  destruct (segs_rule _ _ _ _ Gq Vx H5) as (A1 & A2 & A3). destruct (segs_rule _ _ _ _ Gq Vy H6) as (B1 & B2 & B3).
  rewrite <- Er in HN. pose proof (phys_near c b Hb GX GY k A1 A2 B1 B2 A3 B3 _ _ HN) as Q. rewrite E2, E3, E4 in Q. exact Q.
Qed.

Lemma basis_lambda : 0 < k_lambda K.
Proof.
  pose proof (fixed_compute _ _ _ _ _ _ _ _ _ _ _ _ _ _ Hs Hc) as Hc'.
  destruct (from_parts _ _ _ _ _ _ _ Hleg Hsort (fixed_shaped _ _ _ (hints_positive K st)) _ _ _ _ _ _ _ _ _ _ _ _ _ _ _ _ Hc' Hi Hw) as (Hb & Er & E1 & E2 & E3 & E4 & Hl). exact Hl.
Qed.

Lemma link_basis_centro : tfun_ok f -> (forall x y, -1 <= x <= 1 -> -1 <= y <= 1 -> has_value f K x y (k x y)) -> st <> Some SampleStrat ->
  exists n q gx gy GX GY re we ro wo,
    n = match ng with None => hint_ngauss safe | Some m => m end /\ legendre t n = Ok q /\
    piecewise q (half (segments_x K)) = Ok gx /\ piecewise q (half (segments_y K)) = Ok gy /\
    piecewise q (segments_x K) = Ok GX /\ piecewise q (segments_y K) = Ok GY /\
    let Ae := weighted (fun x y => k x y + k x (- y)) gx gy in
    let Ao := weighted (fun x y => k x y - k x (- y)) gx gy in
    let F := physical_factor beta wmax (k_ypower K) in
    Decomp.svd_compute L t (as_mat Ae) (Some (reduced_nsvals K)) strategy = Ok (re, we) /\
    Decomp.svd_compute L t (as_mat Ao) (Some (reduced_nsvals K)) strategy = Ok (ro, wo) /\
    forall ee eo, as_documented Ae re ee -> as_documented Ao ro eo ->
    near_best_of_its_size (reseat GX 0 beta) (reseat GY (- wmax) wmax) (in_physical k (k_ypower K) beta wmax) b
      (F * sqrt (Rsqr (total_error (length (rx gx)) (length (rx gy)) ee) + Rsqr (total_error (length (rx gx)) (length (rx gy)) eo)))
      (Rsqr F * (sumsq (t_s re) + sumsq (t_s ro))).
Proof.
  intros Hf Hk Hst. destruct (link_centro _ _ _ _ _ _ _ _ _ _ _ _ _ _ Hs Hc Hst k Hf basis_lambda Hk) as
    (n & q & gx & gy & GX & GY & re & we & ro & wo & H1 & H2 & H3 & H4 & H5 & H6 & H7 & H8 & H9).
  exists n, q, gx, gy, GX, GY, re, we, ro, wo. do 6 (split; [assumption|]). cbv zeta in *. split; [exact H7|]. split; [exact H8|]. intros ee eo De Do.
  exact (basis_near q n GX GY _ _ (proj1 (Hleg _ _ _ H2)) H5 H6 (H9 _ _ De Do)).
Qed.
End Basis.
End Near.

(** * The warnings *)
Lemma link_warnings L dd f legendre argsort K eps cutoff n_sv ng work st svds o w safe t strategy low :
  safe_eps (installed (xprec_svd L)) dd eps work svds = (safe, t, strategy, low) ->
  compute_warns L dd f legendre argsort K eps cutoff n_sv ng work st svds = Ok (o, w) ->
  (In LowAccuracy w <-> svds = None /\ exists e, eps = Some e /\ xltb e (Fin safe) = true) /\
  (In (InSvd NoJacobi) w <-> (xprec_svd L = None \/ t <> DDouble) /\ strategy = "accurate"%string /\ lapack_gejsv L = None) /\
  (lapack_gejsv L = None \/ strategy <> "accurate"%string \/ (t = DDouble /\ xprec_svd L <> None) -> ~ In (InSvd Denormalized) w /\ ~ In (InSvd NotConverged) w).
Proof.
  intros Hs Hc.
  assert (Hlow : low = true <-> svds = None /\ exists e, eps = Some e /\ xltb e (Fin safe) = true).
  { unfold safe_eps in Hs. cbv zeta in Hs. set (t0 := match work with None => _ | Some t => t end) in Hs. clearbody t0.
    set (s0 := match t0 with Float64 => _ | _ => _ end) in Hs. clearbody s0. destruct svds as [s|]; [injection Hs as <- <- <- <-; split; [discriminate|intros [H _]; discriminate]|].
    destruct eps as [e|]; [|injection Hs as <- <- <- <-; split; [discriminate|intros (_ & e & H & _); discriminate]].
    destruct (xltb e (Fin s0)) eqn:E; injection Hs as <- <- <- <-; (split; [intros H; try discriminate; eauto|intros (_ & e' & [= <-] & H); congruence]). }
  assert (Hin : forall x v, In x (map InSvd v) <-> exists y, x = InSvd y /\ In y v).
  { intros x v. rewrite in_map_iff. split; intros (y & ? & ?); eauto. }
  assert (W : exists v, w = (if low then [LowAccuracy] else []) ++ map InSvd v /\
    (In NoJacobi v <-> (xprec_svd L = None \/ t <> DDouble) /\ strategy = "accurate"%string /\ lapack_gejsv L = None) /\
    (In Denormalized v \/ In NotConverged v -> (xprec_svd L = None \/ t <> DDouble) /\ strategy = "accurate"%string /\ lapack_gejsv L <> None)).
  { destruct (warns_parts L dd f legendre argsort _ _ _ _ _ _ _ _ _ _ _ _ _ _ Hs Hc) as [W1 W2].
    assert (One : forall A hint r v, Decomp.svd_compute L t (as_mat A) hint strategy = Ok (r, v) ->
      (In NoJacobi v <-> (xprec_svd L = None \/ t <> DDouble) /\ strategy = "accurate"%string /\ lapack_gejsv L = None) /\
      (In Denormalized v \/ In NotConverged v -> (xprec_svd L = None \/ t <> DDouble) /\ strategy = "accurate"%string /\ lapack_gejsv L <> None)).
    { intros A hint r v H. destruct (svd_warns _ _ _ _ _ _ _ H) as (S1 & S2 & S3). split; [exact S1|].
      intros [Hd|Hd]; [apply S2 in Hd|apply S3 in Hd]; destruct Hd as (g & (J1 & J2 & J3) & _); split; auto; split; auto; congruence. }
    assert (Hcase : st = Some SampleStrat \/ st <> Some SampleStrat) by (destruct st as [[|]|]; auto; right; discriminate).
    destruct Hcase as [Hst|Hst].
    - destruct (W1 Hst) as (S & A & r & v & _ & _ & Hd & ->). exists v. split; [reflexivity|]. exact (One _ _ _ _ Hd).
    - destruct (W2 Hst) as (Ke & Ko & even & odd & Ae & Ao & re & ro & ve & vo & _ & _ & _ & _ & _ & _ & He & Ho & ->).
      exists (ve ++ vo). split; [rewrite map_app; reflexivity|]. destruct (One _ _ _ _ He) as [E1 E2]. destruct (One _ _ _ _ Ho) as [O1 O2].
      rewrite !in_app_iff. split; [tauto|]. intros [[H|H]|[H|H]]; auto. }
  destruct W as (v & -> & Hj & Hd).
  split; [|split].
  - rewrite <- Hlow, in_app_iff, Hin. split.
    + intros [H|(y & H & _)]; [|discriminate]. destruct low; [reflexivity|destruct H].
    + intros ->. left. left. reflexivity.
  - rewrite in_app_iff, Hin. rewrite <- Hj. split.
    + intros [H|(y & [= <-] & H)]; [destruct low; cbn in H; [destruct H; [discriminate|tauto]|tauto]|exact H].
    + intros H. right. eauto.
  - intros Hn. assert (No : forall x, x = Denormalized \/ x = NotConverged -> In (InSvd x) ((if low then [LowAccuracy] else []) ++ map InSvd v) -> False).
    { intros x Hx H. apply in_app_iff in H as [H|H]; [destruct low; cbn in H; [destruct H; [discriminate|tauto]|tauto]|]. apply Hin in H as (y & [= <-] & Hy).
      assert (Q : In Denormalized v \/ In NotConverged v) by (destruct Hx; subst; auto). destruct (Hd Q) as (D1 & D2 & D3). destruct Hn as [H|[H|[H H']]]; try tauto.  }
    split; intros H; refine (No _ _ H); auto.
Qed.

(** * The hypotheses are met *)
Lemma bind_some {A B} (r : res (A * B)) o : erase r = Ok o -> exists w, r = Ok (o, w).
Proof. destruct r as [[a b]|]; cbn; intros [= ->]. eauto. Qed.

(** The library of the case: the decomposition of the first row. *)
Definition case_libs : libs :=
  let row a := map (fun j => Re (me a 0%nat j)) (seq 0 (mc a)) in
  let n a := sqrt (sumsq (row a)) in
  Libs (fun a => SVDRes (Mat 1 1 (fun _ _ => RtoC 1)) [n a] (Mat 1 (mc a) (fun _ j => RtoC (nth j (row a) 0 / n a))))
    (fun a _ => Triple (Mat 1 1 (fun _ _ => RtoC 1)) [n a] (Mat (mc a) 1 (fun j _ => RtoC (nth j (row a) 0 / n a)))) None None.

Lemma first_row A : map (fun j => Re (me (as_mat A) 0%nat j)) (seq 0 (mc (as_mat A))) = match A with [] => [] | row :: _ => row end.
Proof.
  destruct A as [|row A]; [reflexivity|]. cbn [as_mat mc me nth]. unfold RtoC, Re. cbn [fst].
  exact (NDFacts.map_nth_seq 0 row).
Qed.

Lemma case_decompose t hint A : erase (decompose case_libs t hint "default" A) = svd_compute false false row_svd t A hint "default".
Proof.
  unfold decompose, Decomp.svd_compute, svd_compute. cbv zeta. cbn [case_libs xprec_svd numpy_svd lapack_gejsv interp_svd default_svd].
  assert (E : as_usv (default_svd (numpy_svd case_libs) (as_mat A)) = row_svd AlgLapack A hint).
  { unfold as_usv, default_svd. cbn [case_libs numpy_svd t_u t_s t_v r_u r_s r_vh adjoint]. rewrite first_row. unfold columns. cbn [mr mc me seq map].
    destruct A as [|row A].
    - cbn. unfold sumsq, rsum. cbn. rewrite sqrt_0. reflexivity.
    - cbn [as_mat mc row_svd]. cbv zeta. apply f_equal. apply (f_equal (fun x => [x])).
      transitivity (map (fun x => x / sqrt (sumsq row)) (map (fun i => nth i row 0) (seq 0 (length row)))); [rewrite map_map; apply map_ext; reflexivity|].
      rewrite NDFacts.map_nth_seq. reflexivity. }
  destruct t; exact (f_equal Ok E).
Qed.

Lemma case_link dd : exists r w, compute_warns case_libs dd casef leg1 sort_indices caseK None (Some (Fin 0)) None (Some 1%nat) (Some Float64) None (Some "default"%string) = Ok (Some r, w).
Proof.
  destruct (case_returns false false dd) as [r Hr]. exists r. apply bind_some. rewrite <- Hr. unfold case_compute.
  apply (erase_gen case_libs). intros safe t strategy low [= <- <- <- <-] hint A. apply case_decompose.
Qed.

(** Libraries that return given decompositions of matrices of real entries. *)
Definition rows (a : mat) : matrix := map (fun i => map (fun j => Re (me a i j)) (seq 0 (mc a))) (seq 0 (mr a)).
Definition vectors (m : nat) (us : list (list R)) (n : nat) : mat := Mat m n (fun i k => RtoC (nth i (nth k us []) 0)).
Definition lift (a : mat) (b : usv) : svd_triple :=
  let '(us, s, vs) := b in Triple (vectors (mr a) us (length s)) s (vectors (mc a) vs (length s)).
Definition libs_of (run : matrix -> usv) : libs :=
  Libs (fun a => let t := lift a (run (rows a)) in SVDRes (t_u t) (t_s t) (adjoint (t_v t))) (fun a _ => lift a (run (rows a))) None None.

Lemma rows_as_mat m n A : rectangular m n A -> rows (as_mat A) = A.
Proof.
  intros [H1 H2]. unfold rows. cbn [as_mat mr mc me]. destruct A as [|row A]; [reflexivity|].
  transitivity (map (fun i => nth i (row :: A) []) (seq 0 (length (row :: A)))); [|apply NDFacts.map_nth_seq].
  apply map_ext_in. intros i Hi. apply in_seq in Hi. rewrite Forall_forall in H2.
  assert (E : length row = length (nth i (row :: A) [])).
  { transitivity n; [|symmetry]; apply H2; [left; reflexivity|apply nth_In; lia]. }
  rewrite E. exact (NDFacts.map_nth_seq 0 _).
Qed.

Lemma columns_vectors m us n : length us = n -> Forall (fun u => length u = m) us -> columns (vectors m us n) = us.
Proof.
  intros <- H. unfold columns, vectors. cbn [mr mc me].
  transitivity (map (fun k => nth k us []) (seq 0 (length us))); [|apply NDFacts.map_nth_seq].
  apply map_ext_in. intros k Hk. apply in_seq in Hk. rewrite Forall_forall in H. rewrite <- (H (nth k us [])) by (apply nth_In; lia). exact (NDFacts.map_nth_seq 0 _).
Qed.

Lemma columns_same (a b : mat) : mr a = mr b -> mc a = mc b -> (forall i k, Re (me a i k) = Re (me b i k)) -> columns a = columns b.
Proof. intros H1 H2 H3. unfold columns. rewrite H1, H2. apply map_ext. intros k. apply map_ext. intros i. apply H3. Qed.

Lemma libs_of_compute run t a hint strategy r w : Decomp.svd_compute (libs_of run) t a hint strategy = Ok (r, w) ->
  t_u r = t_u (lift a (run (rows a))) /\ t_s r = t_s (lift a (run (rows a))) /\ mr (t_v r) = mr (t_v (lift a (run (rows a)))) /\ mc (t_v r) = mc (t_v (lift a (run (rows a)))) /\
  forall i k, me (t_v r) i k = me (t_v (lift a (run (rows a)))) i k.
Proof.
  unfold Decomp.svd_compute. cbv zeta. set (R := lift a (run (rows a))). intros H.
  assert (G : r = R \/ r = default_svd (numpy_svd (libs_of run)) a).
  { cbn [libs_of xprec_svd lapack_gejsv interp_svd] in H. destruct t; destruct (String.eqb strategy "fast"), (String.eqb strategy "default"), (String.eqb strategy "accurate"); try discriminate H; injection H; auto. }
  destruct G as [-> | ->]; [repeat split; reflexivity|]. unfold default_svd. cbn [libs_of numpy_svd r_u r_s r_vh t_u t_s t_v adjoint mr mc]. fold R.
  do 4 (split; [reflexivity|]). intros i k. cbn [me]. unfold R, lift. destruct (run (rows a)) as [[us s] vs]. cbn [t_v vectors me]. unfold adjoint, vectors. cbn [me]. unfold Cconj, RtoC. cbn [fst snd]. rewrite Ropp_involutive. reflexivity.
Qed.

Lemma libs_of_usv run t a hint strategy r w : Decomp.svd_compute (libs_of run) t a hint strategy = Ok (r, w) -> as_usv r = as_usv (lift a (run (rows a))).
Proof.
  intros H. destruct (libs_of_compute _ _ _ _ _ _ _ H) as (H1 & H2 & H3 & H4 & H5). unfold as_usv. rewrite H1, H2. f_equal. apply columns_same; auto. intros. rewrite H5. reflexivity.
Qed.

Lemma lift_shaped a b : usv_shaped b -> usv_shaped (as_usv (lift a b)).
Proof.
  destruct b as [[us s] vs]. intros (L1 & L2 & Hs & Hn & Hp). unfold as_usv, lift, usv_shaped. cbn [t_u t_s t_v]. unfold columns. cbn [vectors mc].
  rewrite !map_length, !seq_length. auto.
Qed.

Lemma lift_documented m n A b r t hint strategy w run : rectangular m n A -> (0 < m)%nat -> run A = b -> exact_svd m n A b -> ordered b ->
  Decomp.svd_compute (libs_of run) t (as_mat A) hint strategy = Ok (r, w) -> as_documented A r 0.
Proof.
  intros HA Hm Hb He [O1 O2] Hr. destruct (libs_of_compute _ _ _ _ _ _ _ Hr) as (H1 & H2 & H3 & H4 & H5). rewrite (rows_as_mat _ _ _ HA), Hb in *.
  assert (Em : mr (as_mat A) = m) by exact (proj1 HA).
  assert (En : mc (as_mat A) = n). { destruct HA as [A1 A2]. cbn. destruct A as [|row A]; [cbn in A1; lia|]. inversion A2; auto. }
  destruct b as [[us s] vs]. destruct He as (L1 & L2 & F1 & F2 & Ou & Ov & Ea). cbn [lift t_u t_s t_v vectors mr mc me] in *. cbn [svals fst snd] in O1, O2.
  assert (Real : forall N l m', (forall a b, (a < N)%nat -> (b < N)%nat -> dot (nth a l []) (nth b l []) = if (a =? b)%nat then 1 else 0) -> Forall (fun c => length c = m') l -> length l = N ->
    orthonormal_columns m' N (fun i k => RtoC (nth i (nth k l []) 0))).
  { intros N l m' Ho Hf Hl a b Ha Hb'. rewrite (csumn_ext _ _ (fun i => RtoC (nth i (nth a l []) 0 * nth i (nth b l []) 0))).
    - rewrite csumn_R. rewrite Forall_forall in Hf. rewrite <- (dot_sumn _ _ m') by (apply Hf, nth_In; lia). rewrite Ho by auto. unfold delta; destruct (a =? b)%nat; reflexivity.
    - intros i _. unfold Cconj, Cmult, RtoC. cbn. f_equal; ring. }
  unfold as_documented. rewrite H1, H2. split; [|split; [|split; [|split; [exact O1|exact O2]]]].
  - unfold decomposes. rewrite H1, H2, H3, H4, Em, En. cbn [mr mc me]. do 4 (split; [reflexivity|]). split; [|split].
    + apply Real; auto. intros a b Ha Hb'. apply Ou; lia.
    + assert (G : orthonormal_columns n (length s) (fun i k => RtoC (nth i (nth k vs []) 0))) by (apply Real; auto; [intros a b Ha Hb'; apply Ov; lia]).
      intros a b Ha Hb'. rewrite <- (G a b Ha Hb'). apply csumn_ext. intros i _. rewrite !H5. reflexivity.
    + intros i l Hi Hl.
      assert (E : me (as_mat A) i l = product_T r i l).
      { unfold product_T. rewrite H1, H2. cbn [as_mat me]. fold (ment A i l). rewrite Ea by auto. rewrite <- csumn_R. apply csumn_ext. intros k _. rewrite H5. cbn [me]. unfold Cmult, RtoC. cbn. f_equal; ring. }
      rewrite E. replace (Cminus _ _) with (RtoC 0) by (unfold Cminus, Cplus, Copp, RtoC; cbn; f_equal; ring). rewrite Cmod_0. lra.
  - intros i k _ _. reflexivity.
  - intros i k _ _. rewrite H5. reflexivity.
Qed.

(** For every kernel there are rules and libraries with exact decompositions, and
    with them compute returns. *)
Lemma libraries_exist f K k : exists legendre L argsort,
  good_rules legendre /\ (forall s, sorts s (argsort s)) /\ returns_values L /\ jacobi_accepts L /\
  (forall t n q, legendre t n = Ok q ->
    (forall gx gy, piecewise q (half (segments_x K)) = Ok gx -> piecewise q (half (segments_y K)) = Ok gy ->
     forall t' hint strategy r w,
     (Decomp.svd_compute L t' (as_mat (weighted (fun x y => k x y + k x (- y)) gx gy)) hint strategy = Ok (r, w) -> as_documented (weighted (fun x y => k x y + k x (- y)) gx gy) r 0) /\
     (Decomp.svd_compute L t' (as_mat (weighted (fun x y => k x y - k x (- y)) gx gy)) hint strategy = Ok (r, w) -> as_documented (weighted (fun x y => k x y - k x (- y)) gx gy) r 0)) /\
    (forall gx gy, piecewise q (segments_x K) = Ok gx -> piecewise q (segments_y K) = Ok gy ->
     forall t' hint strategy r w,
     Decomp.svd_compute L t' (as_mat (weighted k gx gy)) hint strategy = Ok (r, w) -> as_documented (weighted k gx gy) r 0)) /\
  (forall dd eps cutoff n_sv work st svds, known_strategy svds -> (n_sv = None \/ exists z, n_sv = Some (PyInt z) /\ (0 <= z)%Z) ->
    (forall c, cutoff = Some c -> exists x, valid_rtol c x) -> (cutoff = None -> 0 <= dd <= / 2 /\ forall e, work = Some (OtherType e) -> 0 <= e <= / 2) ->
    exists o w, compute_warns L dd f legendre argsort K eps cutoff n_sv None work st svds = Ok (o, w)).
Proof.
  destruct (realizable 10 16 K k ltac:(lia) ltac:(lia)) as (legendre & run & H1 & H2 & H3 & H4).
  pose (run1 := fun A => run AlgID A 1%Z). exists legendre, (libs_of run1), sort_indices.
  split; [exact H1|]. split; [exact sort_indices_ok|]. split; [|split; [discriminate|split]].
  - intros t hint strategy A m n r w HA Hm Hn Hh Hr. rewrite (libs_of_usv _ _ _ _ _ _ _ Hr). apply lift_shaped. rewrite (rows_as_mat _ _ _ HA).
    apply (H2 AlgID A 1%Z m n); auto. lia.
  - intros t n q Hq. destruct (H4 t n q AlgID 1%Z Hq) as [Ha Hb]. destruct (H1 _ _ _ Hq) as [Gq _]. destruct (segments_valid K) as [Vx Vy]. split.
    + intros gx gy Hx Hy. destruct (Ha gx gy Hx Hy) as [[E1 O1] [E2 O2]].
      destruct (weighted_nodes _ _ _ _ Gq (proj1 (half_edges_of _ Vx)) Hx) as [X1 X2]. destruct (weighted_nodes _ _ _ _ Gq (proj1 (half_edges_of _ Vy)) Hy) as [Y1 Y2].
      intros t' hint strategy r w. split; intros Hr; [refine (lift_documented _ _ _ _ _ _ _ _ _ run1 (weighted_rectangular _ _ _ X1 Y1) X2 eq_refl E1 O1 Hr)|refine (lift_documented _ _ _ _ _ _ _ _ _ run1 (weighted_rectangular _ _ _ X1 Y1) X2 eq_refl E2 O2 Hr)].
    + intros gx gy Hx Hy. destruct (Hb gx gy Hx Hy) as [E1 O1].
      destruct (weighted_nodes _ _ _ _ Gq (proj1 (full_edges _ Vx)) Hx) as [X1 X2]. destruct (weighted_nodes _ _ _ _ Gq (proj1 (full_edges _ Vy)) Hy) as [Y1 Y2].
      intros t' hint strategy r w Hr. exact (lift_documented _ _ _ _ _ _ _ _ _ run1 (weighted_rectangular _ _ _ X1 Y1) X2 eq_refl E1 O1 Hr).
  - intros dd eps cutoff n_sv work st svds Hst Hn Hc Hd.
    pose (run2 := fun (_ : svd_alg) A (_ : Z) => as_usv (lift (as_mat A) (run1 (rows (as_mat A))))).
    destruct (returns false false dd f legendre run2 sort_indices K eps cutoff n_sv None work st svds sort_indices_ok) as [o Ho]; auto.
    + intros alg A h m n HA Hm Hn' Hh. unfold run2. apply lift_shaped. rewrite (rows_as_mat _ _ _ HA). apply (H2 AlgID A 1%Z m n); auto. lia.
    + intros t n [H|[_ H]]; [discriminate|]. destruct (H3 t n H) as [q Hq]. exists q. split; [exact Hq|]. exact (H1 _ _ _ Hq).
    + exists o. apply bind_some. rewrite <- Ho. apply (erase_gen (libs_of run1)). intros safe t strategy low _ hint A. cbn [libs_of xprec_svd lapack_gejsv installed].
      unfold decompose, svd_compute. cbv zeta. destruct (Decomp.svd_compute (libs_of run1) t (as_mat A) (Some hint) strategy) as [[r w]|e] eqn:E; cbn [bind without_warnings].
      * destruct (one_matrix _ _ _ _ _ _ _ E) as (alg & w' & Ed & _). cbn [libs_of xprec_svd lapack_gejsv installed] in Ed. rewrite Ed. cbn [bind]. rewrite (libs_of_usv _ _ _ _ _ _ _ E). reflexivity.
      * assert (Ej : jacobi_accepts (libs_of run1)) by discriminate. pose proof (library_raises _ _ _ _ _ _ E Ej) as Ed. cbn [libs_of xprec_svd lapack_gejsv installed] in Ed. rewrite Ed. reflexivity.
Qed.
