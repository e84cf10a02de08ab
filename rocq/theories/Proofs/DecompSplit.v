(** Lemmas about matrices in split form, and about the choice of SVD library. *)
From Coq Require Import String ZArith Arith Bool Reals Lia Lra.
From Coquelicot Require Import Coquelicot.
From Coq Require Import List Sorted.
From Verif.Model Require Import Base Util Num FT SVE NDArray Sampling Decomp.
From Verif.Spec Require Import SSampling SDecomp.
From Verif.Proofs Require Import BaseFacts SumFacts FTFacts FTModel NDFacts LstsqFacts SamplingFacts SplitFacts SamplingProps DecompFacts.
From Verif.Proofs Require DLRProps.
Import ListNotations.
Open Scope R_scope.
Notation length := List.length.

Section Split.
Variable a : nd C.
Let A := nd_mat a.

Lemma split_inv uc vc r d : split_array a uc vc r = Ok d ->
  ndim a = 2%nat /\ uc = true /\ vc = false /\ fits A (r_u r) (r_s r) (r_vh r) /\ d = of_split A (drop_zeros r).
Proof.
  unfold split_array. destruct (Nat.eqb_spec (ndim a) 2) as [E|]; [|discriminate]. cbn [negb]. fold A.
  destruct (check_svd_result _ _ _ _) eqn:Ec; [|discriminate]. cbn [bind].
  destruct vc; [discriminate|]. destruct uc; [|discriminate]. cbn [negb].
  unfold split_decomposed. rewrite Ec. cbn [bind]. intros [= <-]. apply check_fits in Ec. auto.
Qed.

Lemma split_exists r : ndim a = 2%nat -> fits A (r_u r) (r_s r) (r_vh r) -> exists d, split_array a true false r = Ok d.
Proof.
  intros E H. unfold split_array. rewrite E. cbn [negb Nat.eqb]. fold A. rewrite (fits_check A r H). cbn [bind negb].
  unfold split_decomposed. rewrite (fits_check A r H). now eexists.
Qed.

Lemma split_raises uc vc r : ndim a <> 2%nat \/ uc = false \/ vc = true \/ ~ fits A (r_u r) (r_s r) (r_vh r) ->
  split_array a uc vc r = Raise ValueError.
Proof.
  unfold split_array. destruct (Nat.eqb_spec (ndim a) 2) as [E|]; [|reflexivity]. cbn [negb]. fold A.
  destruct (check_svd_result _ _ _ _) as [x|e] eqn:Ec.
  - cbn [bind]. apply check_fits in Ec. intros [F|[->|[->|F]]]; try contradiction; [|reflexivity]. now destruct vc.
  - intros _. cbn [bind]. f_equal. unfold check_svd_result in Ec.
    destruct (_ || _); [congruence|]. destruct (_ || _); congruence.
Qed.

Lemma split_u A' r i k : me (sdec_u (of_split A' r)) i k = me (r_u r) i k.
Proof. unfold sdec_u, of_split; cbn. apply C_eq; unfold Re, Im; cbn; ring. Qed.

Lemma split_product uc vc r d : split_array a uc vc r = Ok d ->
  (forall k l, (k < length (r_s r))%nat -> (l < mc A)%nat -> Im (me (r_vh r) k l) = 0) ->
  sd_a d = A /\ fits A (sdec_u d) (sd_s d) (sdec_vH d) /\
  (forall i l, (l < mc A)%nat -> product (sdec_u d) (sd_s d) (sdec_vH d) i l = product (r_u r) (r_s r) (r_vh r) i l) /\
  (forall x, In x (sd_s d) <-> In x (r_s r) /\ x <> 0) /\
  (forall k l, (k < length (sd_s d))%nat -> (l < mc A)%nat -> Im (me (sdec_vH d) k l) = 0).
Proof.
  intros H Hr. apply split_inv in H. destruct H as (_ & _ & _ & Hf & ->).
  destruct (drop_fits A r Hf) as ((F1 & F2 & F3 & F4) & P & I).
  assert (Hr' : forall k l, (k < length (r_s (drop_zeros r)))%nat -> (l < mc A)%nat -> Im (me (r_vh (drop_zeros r)) k l) = 0).
  { destruct Hf as (_ & _ & Hv & _). unfold drop_zeros. destruct (forallb _ _) eqn:E; [exact Hr|].
    unfold sel_rows. cbn [r_s r_vh me]. rewrite Hv, mask_kept, mask_kept_s, map_length. intros k l Hk Hl.
    apply Hr; [now apply kept_in|assumption]. }
  split; [reflexivity|]. split; [|split; [|split; [exact I|]]].
  - unfold fits, sdec_u, sdec_vH, of_split, adjoint. cbn. auto.
  - intros i l Hl. rewrite <- P. unfold product. apply csumn_ext. intros k Hk. rewrite split_u. f_equal. f_equal.
    unfold sdec_vH, of_split, adjoint; cbn. apply Cconj_real. now apply Hr'.
  - intros k l Hk Hl. unfold sdec_vH, of_split, adjoint in *; cbn in *.
    specialize (Hr' k l Hk Hl). unfold Im in *. rewrite Hr'. ring.
Qed.
End Split.

(** The triple of _split_complex. *)
Lemma split_complex_product svd A (hz : bool) : let off := if hz then 1%nat else 0%nat in
  is_real_svd (stacked A off) (svd (stacked A off)) ->
  let r := split_complex svd A hz in
  fits A (r_u r) (r_s r) (r_vh r) /\
  (forall k l, (k < length (r_s r))%nat -> (l < mc A)%nat -> Im (me (r_vh r) k l) = 0) /\
  forall i l, (i < mr A)%nat -> (l < mc A)%nat ->
    product (r_u r) (r_s r) (r_vh r) i l = if hz && Nat.eqb i 0 then RtoC (Re (me A i l)) else me A i l.
Proof.
  intros off ((Hu & Hk & Hv & Hl & _ & Hf & _) & Ru & Rv) r.
  set (q := svd (stacked A off)) in *. cbn [stacked mr mc] in *.
  split; [|split].
  - unfold r, split_complex, fits. fold off q. cbn [r_u r_s r_vh mr mc]. auto.
  - exact Rv.
  - intros i l Hi Hl'.
    assert (X : forall j, (j < mr A + (mr A - off))%nat ->
       sumn (length (r_s q)) (fun k => Re (me (r_u q) j k) * (nth k (r_s q) 0 * Re (me (r_vh q) k l))) = 
       if (j <? mr A)%nat then Re (me A j l) else Im (me A (off + (j - mr A)) l)).
    { intros j Hj. specialize (Hf j l Hj Hl'). cbn [stacked me] in Hf.
      assert (Y : csumn (length (r_s q)) (fun k => Cmult (me (r_u q) j k) (Cmult (RtoC (nth k (r_s q) 0)) (me (r_vh q) k l))) =
                  RtoC (sumn (length (r_s q)) (fun k => Re (me (r_u q) j k) * (nth k (r_s q) 0 * Re (me (r_vh q) k l))))).
      { rewrite <- DLRProps.csumn_R. apply csumn_ext. intros k Hkk. rewrite (real_RtoC _ (Ru j k Hj Hkk)) at 1.
        rewrite (real_RtoC _ (Rv k l Hkk Hl')) at 1. now rewrite <- !RtoC_mult. }
      rewrite Y in Hf. now injection Hf as <-. }
    assert (P : product (r_u r) (r_s r) (r_vh r) i l =
      (sumn (length (r_s q)) (fun k => Re (me (r_u q) i k) * (nth k (r_s q) 0 * Re (me (r_vh q) k l))),
       if (i <? off)%nat then 0 else sumn (length (r_s q)) (fun k => Re (me (r_u q) (mr A + (i - off)) k) * (nth k (r_s q) 0 * Re (me (r_vh q) k l))))).
    { transitivity (csumn (length (r_s q)) (fun k => Cplus (RtoC (Re (me (r_u q) i k) * (nth k (r_s q) 0 * Re (me (r_vh q) k l))))
         (Cmult Ci (RtoC (if (i <? off)%nat then 0 else Re (me (r_u q) (mr A + (i - off)) k) * (nth k (r_s q) 0 * Re (me (r_vh q) k l))))))).
      - unfold product, r, split_complex. fold off q. cbn [r_u r_s r_vh mr mc me]. apply csumn_ext. intros k Hkk.
        rewrite (real_RtoC _ (Rv k l Hkk Hl')) at 1. destruct (i <? off)%nat; apply C_eq; unfold Re, Im; cbn; ring.
      - rewrite csumn_plus, csumn_scal, !DLRProps.csumn_R. destruct (i <? off)%nat.
        + assert (Z : forall n, sumn n (fun _ => 0) = 0) by (induction n as [|n IHn]; [reflexivity|rewrite sumn_S, IHn; ring]).
          rewrite Z. apply C_eq; unfold Re, Im; cbn; ring.
        + apply C_eq; unfold Re, Im; cbn; ring. }
    rewrite P, (X i) by lia. destruct (Nat.ltb_spec i (mr A)); [|lia].
    assert (Z : (hz && Nat.eqb i 0)%bool = (i <? off)%nat).
    { unfold off. destruct hz; [|now destruct i]. destruct i; reflexivity. }
    rewrite Z. destruct (Nat.ltb_spec i off) as [L|L]; [apply C_eq; reflexivity|].
    rewrite (X (mr A + (i - off))%nat) by lia. destruct (Nat.ltb_spec (mr A + (i - off)) (mr A)); [lia|].
    replace (off + (mr A + (i - off) - mr A))%nat with i by lia. now destruct (me A i l).
Qed.

(** The libraries. *)
Lemma decomposes_conj A r err (f : mat -> mat) : decomposes_h A r err ->
  mr (f (r_vh r)) = mc (r_vh r) -> mc (f (r_vh r)) = mr (r_vh r) ->
  (forall l k, (l < mc A)%nat -> (k < length (r_s r))%nat -> me (f (r_vh r)) l k = me (r_vh r) k l) ->
  decomposes A (Triple (r_u r) (r_s r) (f (r_vh r))) err.
Proof.
  intros ((F1 & F2 & F3 & F4) & Ou & Ov & Rv & P) M1 M2 E. unfold decomposes. cbn [t_u t_s t_v].
  split; [exact F1|]. split; [exact F2|]. split; [now rewrite M1|]. split; [now rewrite M2|].
  split; [exact Ou|]. split.
  - intros k k' H1 H2. rewrite <- (Ov k k' H1 H2). apply csumn_ext. intros l Hl. now rewrite !E.
  - intros i l Hi Hl. refine (Rle_trans _ _ _ _ (P i l Hi Hl)). right. do 2 f_equal. unfold product_T, product. cbn [t_u t_s t_v].
    apply csumn_ext. intros k Hk. now rewrite E.
Qed.

Lemma decomposes_swap A t err : decomposes (transposed A) t err -> decomposes A (Triple (t_v t) (t_s t) (t_u t)) err.
Proof.
  intros (F1 & F2 & F3 & F4 & Ou & Ov & P). unfold decomposes. cbn [t_u t_s t_v transposed mr mc me] in *.
  repeat (split; [assumption|]). intros i l Hi Hl. specialize (P l i Hl Hi).
  refine (Rle_trans _ _ _ _ P). right. do 2 f_equal. unfold product_T; cbn [t_u t_s t_v]. apply csumn_ext. intros; ring.
Qed.

Lemma job_F : gejsv_job "F" = Ok 2%nat.
Proof. reflexivity. Qed.

Definition gejsv_warnings (g : gejsv_result) : list svd_warning :=
  (if (g_istat2 g =? 0)%Z then [] else [Denormalized]) ++ (if (0 <? g_info g)%Z then [NotConverged] else []).

Definition back (A : mat) (t : svd_triple) : svd_triple :=
  if (mr A <? mc A)%nat then Triple (t_v t) (t_s t) (t_u t) else t.

Lemma gejsv_eq g A : gejsv_svd g A "F" =
  if (g_info (g (tall A) 2%nat) <? 0)%Z then Raise ValueError
  else Ok (back A (g_triple (g (tall A) 2%nat)), gejsv_warnings (g (tall A) 2%nat)).
Proof.
  unfold gejsv_svd, tall, back, gejsv_tall. rewrite job_F. cbn [bind]. destruct (mr A <? mc A)%nat.
  - destruct (g_info _ <? 0)%Z; reflexivity.
  - reflexivity.
Qed.

Section Libs.
Variables (L : libs) (t : dtype) (A : mat) (hint : option Z) (st : string) (err : R).

Lemma default_decomposes : decomposes_h A (numpy_svd L A) err -> decomposes A (default_svd (numpy_svd L) A) err.
Proof.
  intros H. apply (decomposes_conj A (numpy_svd L A) err adjoint H); try reflexivity.
  intros l k Hl Hk. cbn. apply Cconj_real. now apply H.
Qed.

Lemma svd_ok : In st ["fast"; "default"; "accurate"]%string ->
  (forall f, xprec_svd L = Some f -> decomposes_h A (f A) err) ->
  decomposes_h A (numpy_svd L A) err ->
  decomposes A (interp_svd L A (wanted_rank A hint)) err ->
  (forall g, lapack_gejsv L = Some g ->
     (0 <= g_info (g (tall A) 2%nat))%Z /\ decomposes (tall A) (g_triple (g (tall A) 2%nat)) err) ->
  exists r w, svd_compute L t A hint st = Ok (r, w) /\ decomposes A r err.
Proof.
  intros Hs Hx Hn Hi Hg.
  assert (N : exists r w, (if String.eqb st "fast" then Ok (interp_svd L A (wanted_rank A hint), [])
      else if String.eqb st "default" then Ok (default_svd (numpy_svd L) A, [])
      else if String.eqb st "accurate" then
        match lapack_gejsv L with
        | None => Ok (default_svd (numpy_svd L) A, [NoJacobi])
        | Some g => gejsv_svd g A "F"
        end
      else Raise ValueError) = Ok (r, w) /\ decomposes A r err).
  { pose proof (default_decomposes Hn) as D.
    destruct Hs as [<-|[<-|[<-|[]]]]; cbn [String.eqb Ascii.eqb Bool.eqb].
    - do 2 eexists. split; [reflexivity|exact Hi].
    - do 2 eexists. split; [reflexivity|exact D].
    - destruct (lapack_gejsv L) as [g|]; [|do 2 eexists; split; [reflexivity|exact D]].
      destruct (Hg g eq_refl) as [I P]. rewrite gejsv_eq. destruct (Z.ltb_spec (g_info (g (tall A) 2%nat)) 0); [lia|].
      do 2 eexists. split; [reflexivity|]. unfold back. unfold tall in P.
      destruct (mr A <? mc A)%nat eqn:E.
      + apply decomposes_swap. unfold tall. rewrite E. exact P.
      + unfold tall. rewrite E. exact P. }
  unfold svd_compute. cbv zeta. fold (wanted_rank A hint).
  destruct (xprec_svd L) as [f|] eqn:Ex; [|exact N]. destruct t; try exact N.
  do 2 eexists. split; [reflexivity|].
  apply (decomposes_conj A (f A) err transposed); try reflexivity. now apply Hx.
Qed.

Lemma svd_hermitian w r : t <> DDouble -> is_svd A (numpy_svd L A) ->
  st = "default"%string \/ (st = "accurate"%string /\ lapack_gejsv L = None) ->
  svd_compute L t A hint st = Ok (r, w) ->
  is_svd A (SVDRes (t_u r) (t_s r) (adjoint (t_v r))).
Proof.
  intros Ht Hs Hst H.
  assert (E : r = default_svd (numpy_svd L) A).
  { unfold svd_compute in H. cbv zeta in H. destruct (xprec_svd L); destruct t; try congruence;
    (destruct Hst as [->|[-> G]]; [|rewrite G in H]); cbn [String.eqb Ascii.eqb Bool.eqb] in H; now injection H. }
  subst r. unfold default_svd. cbn [t_u t_s t_v].
  destruct Hs as (S1 & S2 & S3 & S4 & So & Sf & Sp & Sd). unfold is_svd. cbn [r_u r_s r_vh].
  split; [exact S1|]. split; [exact S2|]. split; [exact S3|]. split; [exact S4|].
  split; [|split; [|split; assumption]].
  - intros k k' H1 H2. destruct (So k k' H1 H2) as [O1 O2]. split; [exact O1|].
    rewrite <- O2. apply csumn_ext. intros l _. now rewrite !conj2.
  - intros i l Hi Hl. rewrite (Sf i l Hi Hl). apply csumn_ext. intros k _. now rewrite conj2.
Qed.

Lemma svd_raises e : svd_compute L t A hint st = Raise e <->
  e = ValueError /\ (xprec_svd L = None \/ t <> DDouble) /\
  (~ In st ["fast"; "default"; "accurate"]%string \/
   st = "accurate"%string /\ exists g, lapack_gejsv L = Some g /\ (g_info (g (tall A) 2%nat) < 0)%Z).
Proof.
  assert (N : (if String.eqb st "fast" then Ok (interp_svd L A (wanted_rank A hint), [])
      else if String.eqb st "default" then Ok (default_svd (numpy_svd L) A, [])
      else if String.eqb st "accurate" then
        match lapack_gejsv L with
        | None => Ok (default_svd (numpy_svd L) A, [NoJacobi])
        | Some g => gejsv_svd g A "F"
        end
      else Raise ValueError) = Raise e <-> e = ValueError /\ 
   (~ In st ["fast"; "default"; "accurate"]%string \/
   st = "accurate"%string /\ exists g, lapack_gejsv L = Some g /\ (g_info (g (tall A) 2%nat) < 0)%Z)).
  { destruct (String.eqb_spec st "fast") as [->|N1].
    { split; [discriminate|]. intros (_ & [F|[F _]]); [|discriminate]. exfalso. apply F. now left. }
    destruct (String.eqb_spec st "default") as [->|N2].
    { split; [discriminate|]. intros (_ & [F|[F _]]); [|discriminate]. exfalso. apply F. right. now left. }
    destruct (String.eqb_spec st "accurate") as [->|N3].
    - assert (Hin : ~ ~ In "accurate"%string ["fast"; "default"; "accurate"]%string) by (intros F; apply F; right; right; now left).
      destruct (lapack_gejsv L) as [g|].
      + rewrite gejsv_eq. destruct (Z.ltb_spec (g_info (g (tall A) 2%nat)) 0) as [I|I].
        * split; [intros [= <-]; split; [reflexivity|right; split; [reflexivity|now exists g]]|]. now intros [-> _].
        * split; [discriminate|]. intros (_ & [F|(_ & g' & [= <-] & F)]); [contradiction|lia].
      + split; [discriminate|]. intros (_ & [F|(_ & g' & F & _)]); [contradiction|discriminate].
    - split; [intros [= <-]; split; [reflexivity|]|now intros [-> _]].
      left. intros [F|[F|[F|[]]]]; congruence. }
  unfold svd_compute. cbv zeta. fold (wanted_rank A hint).
  destruct (xprec_svd L) as [f|] eqn:Ex.
  - destruct t.
    + rewrite N. intuition congruence.
    + split; [discriminate|]. intros (_ & [F|F] & _); congruence.
    + rewrite N. intuition congruence.
  - rewrite N. intuition.
Qed.

Lemma svd_warns r w : svd_compute L t A hint st = Ok (r, w) ->
  let jacobi g := (xprec_svd L = None \/ t <> DDouble) /\ st = "accurate"%string /\ lapack_gejsv L = g in
  (In NoJacobi w <-> jacobi None) /\
  (In Denormalized w <-> exists g, jacobi (Some g) /\ g_istat2 (g (tall A) 2%nat) <> 0%Z) /\
  (In NotConverged w <-> exists g, jacobi (Some g) /\ (0 < g_info (g (tall A) 2%nat))%Z).
Proof.
  intros H jacobi.
  assert (X : w = [] \/ (jacobi None /\ w = [NoJacobi]) \/ (exists g, jacobi (Some g) /\ w = gejsv_warnings (g (tall A) 2%nat))).
  { unfold svd_compute in H. cbv zeta in H. fold (wanted_rank A hint) in H.
    assert (Y : (xprec_svd L = None \/ t <> DDouble) \/ w = []).
    { destruct (xprec_svd L); [|now left; left]. destruct t; try (left; right; discriminate).
      right. cbn in H. now injection H. }
    destruct Y as [Y|Y]; [|now left].
    assert (H' : (if String.eqb st "fast" then Ok (interp_svd L A (wanted_rank A hint), [])
      else if String.eqb st "default" then Ok (default_svd (numpy_svd L) A, [])
      else if String.eqb st "accurate" then
        match lapack_gejsv L with
        | None => Ok (default_svd (numpy_svd L) A, [NoJacobi])
        | Some g => gejsv_svd g A "F"
        end
      else Raise ValueError) = Ok (r, w)).
    { destruct (xprec_svd L); [|exact H]. destruct t; try exact H. destruct Y; congruence. }
    clear H. destruct (String.eqb_spec st "fast"); [left; now injection H'|].
    destruct (String.eqb_spec st "default"); [left; now injection H'|].
    destruct (String.eqb_spec st "accurate") as [E|]; [|discriminate].
    right. unfold jacobi. destruct (lapack_gejsv L) as [g|].
    - right. exists g. rewrite gejsv_eq in H'. destruct (_ <? _)%Z; [discriminate|]. injection H' as _ <-. auto.
    - left. injection H' as _ <-. auto. }
  assert (W0 : jacobi None -> w = [NoJacobi]).
  { intros (Y & -> & G). unfold svd_compute in H. cbv zeta in H. rewrite G in H.
    destruct (xprec_svd L); [destruct t|]; cbn in H; try (now injection H); destruct Y; congruence. }
  assert (W1 : forall g, jacobi (Some g) -> w = gejsv_warnings (g (tall A) 2%nat)).
  { intros g (Y & -> & G). unfold svd_compute in H. cbv zeta in H. rewrite G in H.
    destruct (xprec_svd L); [destruct t|]; cbn [String.eqb Ascii.eqb Bool.eqb] in H; try rewrite gejsv_eq in H;
      try (destruct (g_info _ <? 0)%Z; [discriminate|now injection H]); destruct Y; congruence. }
  assert (GW : forall g, (In NoJacobi (gejsv_warnings g) <-> False) /\ (In Denormalized (gejsv_warnings g) <-> g_istat2 g <> 0%Z) /\
     (In NotConverged (gejsv_warnings g) <-> (0 < g_info g)%Z)).
  { intros g. unfold gejsv_warnings. destruct (Z.eqb_spec (g_istat2 g) 0), (Z.ltb_spec 0 (g_info g)); cbn; intuition (try lia; try discriminate). }
  split; [|split].
  - split; [|intros J; rewrite (W0 J); now left].
    intros I. destruct X as [->|[[J ->]|(g & J & ->)]]; [destruct I|exact J|]. now apply GW in I.
  - split.
    + intros I. destruct X as [->|[[J ->]|(g & J & ->)]]; [destruct I|destruct I as [F|[]]; discriminate|]. exists g. split; [exact J|now apply GW].
    + intros (g & J & I). rewrite (W1 g J). now apply GW.
  - split.
    + intros I. destruct X as [->|[[J ->]|(g & J & ->)]]; [destruct I|destruct I as [F|[]]; discriminate|]. exists g. split; [exact J|now apply GW].
    + intros (g & J & I). rewrite (W1 g J). now apply GW.
Qed.
End Libs.

Lemma svd_backend L L' t A hint st alg w :
  available (xprec_svd L) = available (xprec_svd L') -> available (lapack_gejsv L) = available (lapack_gejsv L') ->
  svd_dispatch (available (xprec_svd L)) (available (lapack_gejsv L)) t st = Ok (alg, w) ->
  same_on alg A (wanted_rank A hint) L L' ->
  svd_compute L t A hint st = svd_compute L' t A hint st.
Proof.
  intros Hx Hg. unfold svd_compute, svd_dispatch. cbv zeta. fold (wanted_rank A hint).
  assert (N : (if String.eqb st "fast" then Ok (AlgID, false)
      else if String.eqb st "default" then Ok (AlgLapack, false)
      else if String.eqb st "accurate" then
        (if available (lapack_gejsv L) then Ok (AlgJacobi, false) else Ok (AlgLapack, true))
      else Raise ValueError) = Ok (alg, w) -> same_on alg A (wanted_rank A hint) L L' ->
      (if String.eqb st "fast" then Ok (interp_svd L A (wanted_rank A hint), [])
      else if String.eqb st "default" then Ok (default_svd (numpy_svd L) A, [])
      else if String.eqb st "accurate" then
        match lapack_gejsv L with
        | None => Ok (default_svd (numpy_svd L) A, [NoJacobi])
        | Some g => gejsv_svd g A "F"
        end
      else Raise ValueError) = (if String.eqb st "fast" then Ok (interp_svd L' A (wanted_rank A hint), [])
      else if String.eqb st "default" then Ok (default_svd (numpy_svd L') A, [])
      else if String.eqb st "accurate" then
        match lapack_gejsv L' with
        | None => Ok (default_svd (numpy_svd L') A, [NoJacobi])
        | Some g => gejsv_svd g A "F"
        end
      else Raise ValueError)).
  { destruct (String.eqb st "fast"); [intros [= <- <-] S; cbn in S; now rewrite S|].
    destruct (String.eqb st "default"); [intros [= <- <-] S; cbn in S; unfold default_svd; now rewrite S|].
    destruct (String.eqb st "accurate"); [|discriminate].
    destruct (lapack_gejsv L) as [g|] eqn:E, (lapack_gejsv L') as [g'|] eqn:E'; try discriminate; intros [= <- <-] S; cbn in S.
    - specialize (S g g' E E'). rewrite !gejsv_eq. now rewrite S.
    - unfold default_svd; now rewrite S. }
  destruct (xprec_svd L) as [f|] eqn:E, (xprec_svd L') as [f'|] eqn:E'; try discriminate; cbn [available].
  - destruct t; [exact N| |exact N]. intros [= <- <-] S. cbn in S. cbn. now rewrite (S f f' E E').
  - destruct t; exact N.
Qed.

(** The operations of a decomposed matrix. *)
Lemma dec_fit svd a given d : decomposed_array svd a given = Ok d -> is_svd (nd_mat a) (source svd a given) ->
  exists f, (forall x, least_squares (nd_mat a) x (f x)) /\
    works_along_axis (fun x k => d_fit d x (Some k)) (mr (nd_mat a)) (mc (nd_mat a)) f /\
    default_axis (fun x k => d_fit d x k).
Proof.
  intros H Hs. apply dec_inv in H. destruct H as (_ & -> & _).
  exists (fit_fun (of_core (nd_mat a) (drop_zeros (source svd a given)))).
  exact (core_fit (fun _ => source svd a given) (nd_mat a) Hs).
Qed.

Lemma dec_mul svd a given d : decomposed_array svd a given = Ok d ->
  works_along_axis (fun x k => d_matmul d x (Some k)) (mc (nd_mat a)) (mr (nd_mat a)) (apply_mat (nd_mat a)) /\
  default_axis (fun x k => d_matmul d x k) /\ forall x, dec_at d x = d_matmul d x None.
Proof.
  intros H. apply dec_inv in H. destruct H as (_ & -> & _).
  split; [exact (d_matmul_works (of_core (nd_mat a) _))|]. split; [|reflexivity].
  apply (matop_default_axis _ _ _ _ (acts_mm _) (ext_apply_mat _)).
Qed.

Lemma split_mul a uc vc r d : split_array a uc vc r = Ok d ->
  works_along_axis (fun x k => sd_matmul d x (Some k)) (mc (nd_mat a)) (mr (nd_mat a)) (apply_mat (nd_mat a)) /\
  default_axis (fun x k => sd_matmul d x k) /\
  forall xc x, sdec_at d xc x = do y <- sd_matmul d x None; Ok (y, xc).
Proof.
  intros H. apply split_inv in H. destruct H as (_ & _ & _ & _ & ->).
  split; [exact (sd_matmul_works (of_split (nd_mat a) _))|]. split; [|reflexivity].
  apply (matop_default_axis _ _ _ _ (acts_mm _) (ext_apply_mat _)).
Qed.

(** A matrix in the split form of its own stacked parts. *)
Lemma split_own svd a (hz : bool) : let A := nd_mat a in let off := if hz then 1%nat else 0%nat in
  ndim a = 2%nat -> is_real_svd (stacked A off) (svd (stacked A off)) ->
  exists d, split_array a true false (split_complex svd A hz) = Ok d /\ sd_a d = A /\
    fits A (sdec_u d) (sd_s d) (sdec_vH d) /\ Forall (fun x => 0 < x) (sd_s d) /\
    (forall k l, (k < length (sd_s d))%nat -> (l < mc A)%nat -> Im (me (sdec_vH d) k l) = 0) /\
    forall i l, (i < mr A)%nat -> (l < mc A)%nat ->
      product (sdec_u d) (sd_s d) (sdec_vH d) i l = if hz && Nat.eqb i 0 then RtoC (Re (me A i l)) else me A i l.
Proof.
  intros A off Hn Hs. destruct (split_complex_product svd A hz Hs) as (F & R & P).
  destruct (split_exists a _ Hn F) as [d E]. exists d. split; [exact E|].
  destruct (split_product a _ _ _ d E R) as (S1 & S2 & S3 & S4 & S5). split; [exact S1|]. split; [exact S2|]. split; [|split; [exact S5|]].
  - apply Forall_forall. intros x Hx. apply S4 in Hx. destruct Hx as [Hx N].
    destruct Hs as ((_ & _ & _ & _ & _ & _ & Hp & _) & _). change (r_s (split_complex svd A hz)) with (r_s (svd (stacked A off))) in Hx.
    apply In_nth with (d := 0) in Hx. destruct Hx as (k & Hk & <-). specialize (Hp k Hk). lra.
  - intros i l Hi Hl. now rewrite S3, P.
Qed.

Lemma split_own_fit svd a (hz : bool) d : let A := nd_mat a in let off := if hz then 1%nat else 0%nat in
  (off <= mr A)%nat -> is_real_svd (stacked A off) (svd (stacked A off)) ->
  (hz = true -> forall l, (l < mc A)%nat -> Im (me A 0 l) = 0) ->
  split_array a true false (split_complex svd A hz) = Ok d ->
  exists f, (forall x, real_least_squares A x (f x)) /\
    works_along_axis (fun x k => sd_fit d x (Some k)) (mr A) (mc A) f /\ default_axis (fun x k => sd_fit d x k).
Proof.
  intros A off Ho Hs Hz H. apply split_inv in H. destruct H as (_ & _ & _ & _ & ->).
  change (split_complex svd A hz) with (split_with (mr A) off (svd (stacked A off))).
  rewrite drop_split by apply Hs.
  exists (sfit_fun (of_split A (split_with (mr A) off (drop_zeros (svd (stacked A off)))))).
  apply (split_fit A off); [exact Ho| |exact Hs].
  intros i l Hi Hl. unfold off in Hi. destruct hz; [|lia]. destruct i; [|lia]. now apply Hz.
Qed.
