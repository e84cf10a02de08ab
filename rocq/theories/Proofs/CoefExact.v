(** With exact operations the rounded model of sve.compute is the exact one. *)
From Coq Require Import String ZArith Arith Bool Reals Lra Lia FunctionalExtensionality.
From Coquelicot Require Import Coquelicot.
From Coq Require Import List.
From Verif.Model Require Import Base Util Num Gauss Poly PolyIEEE SVE Kernel KernelIEEE GaussIEEE Compute SVEIEEE.
From Verif.Spec Require Import SCompute SSVEIEEE.
From Verif.Proofs Require Import BaseFacts SumFacts LegFacts KernelFacts GaussFacts ComputeNodes MatrixRoundMore PolyRound.
Import ListNotations.
Open Scope R_scope.
Notation length := List.length.
Arguments legP : simpl never.

Notation id := (fun t : R => t).

Lemma legvander_exact x k : legvander_rd id x k = (legP k x, legP (S k) x).
Proof.
  induction k; cbn [legvander_rd]; [rewrite legP_0, legP_1; f_equal; ring|]. rewrite IHk. f_equal. rewrite legP_SS. f_equal. ring.
Qed.
Lemma collocation_exact r n k j : collocation_rd id r k j = legendre_collocation r n k j.
Proof. unfold collocation_rd, legendre_collocation. rewrite legvander_exact. reflexivity. Qed.

Lemma map_dx (l : list R) : map id l = l.
Proof. apply map_id. Qed.
Lemma poly_init_exact order nseg dat knots symm : poly_init_rd id order nseg dat knots symm = poly_init order nseg dat knots None symm.
Proof.
  unfold poly_init_rd. destruct (poly_init order nseg dat knots None symm) as [[g c]|]; [|reflexivity]. cbn [bind vgeom vcols]. rewrite map_dx. destruct g; reflexivity.
Qed.

Lemma collocate_exact n r segs sq vec : collocate_rd id id (fun _ _ => exact_dot) n r segs sq vec = collocate n r segs sq vec.
Proof.
  apply functional_extensionality. intros k. apply functional_extensionality. intros i. unfold collocate_rd, collocate, exact_dot.
  rewrite map_length, seq_length. f_equal. apply sumn_ext. intros j Hj.
  rewrite !(nth_map_in _ _ _ 0%nat 0) by (rewrite seq_length; auto). rewrite seq_nth by auto. cbn [Nat.add]. rewrite (collocation_exact r n). reflexivity.
Qed.

Lemma map2_seq {A B} (h : A -> B) a l : map2 (fun (_ : nat) x => h x) (seq a (length l)) l = map h l.
Proof. revert a. induction l as [|x l IH]; intros a; cbn; [reflexivity|]. rewrite IH. reflexivity. Qed.
Lemma columns_exact n r segs sq vecs : columns_rd id id (fun _ _ _ => exact_dot) n r segs sq vecs = map (collocate n r segs sq) vecs.
Proof.
  unfold columns_rd. rewrite <- (map2_seq (collocate n r segs sq) 0 vecs). f_equal. apply functional_extensionality. intros l. apply functional_extensionality. intros v. apply collocate_exact.
Qed.

Lemma canonicalize_exact old u v : canonicalize_rd old id u v = canonicalize u v.
Proof. unfold canonicalize_rd, canonicalize. destruct (exact_arithmetic old) as (_ & _ & E & _). rewrite E. reflexivity. Qed.

Lemma init_exact legendre K eps ng : sampling_init_rd id legendre K eps ng = sampling_init legendre K eps ng.
Proof.
  unfold sampling_init_rd, sampling_init. destruct (legendre _) as [r|]; [|reflexivity]. cbn [bind]. destruct (sk_segs_x K) as [sx|]; [|reflexivity]. cbn [bind].
  destruct (sk_segs_y K) as [sy|]; [|reflexivity]. cbn [bind]. rewrite !piecewise_exact. reflexivity.
Qed.
Lemma sampled_exact S : sampled_matrix_rd id S = sampling_matrix S.
Proof. reflexivity. Qed.
Lemma post_exact old S b : sampling_post_rd old id id (fun _ _ _ _ => exact_dot) S b = sampling_post S b.
Proof.
  destruct b as [[us s] vs]. unfold sampling_post_rd, sampling_post. rewrite !columns_exact, !poly_init_exact.
  change (sqrtw_rd id (s_gx S)) with (sqrtw (s_gx S)). change (sqrtw_rd id (s_gy S)) with (sqrtw (s_gy S)).
  destruct (poly_init _ _ _ (s_segs_x S) None None); [|reflexivity]. cbn [bind]. destruct (poly_init _ _ _ (s_segs_y S) None None); [|reflexivity]. cbn [bind].
  rewrite canonicalize_exact, map_dx. reflexivity.
Qed.
Lemma merge_exact argsort eps fx fy even odd : merge_rd id argsort eps fx fy even odd = merge argsort eps fx fy even odd.
Proof. unfold merge_rd, merge. cbv zeta. rewrite !poly_init_exact. reflexivity. Qed.
Lemma truncate_exact {A B} (bs : list (block A B)) rtol lmax : truncate_rd id bs rtol lmax = truncate bs rtol lmax.
Proof. reflexivity. Qed.
Lemma full_kern_exact f K eps : full_kern_rd id f K eps = full_kern f K eps.
Proof. unfold full_kern_rd, full_kern. f_equal; apply functional_extensionality; intros gx; apply functional_extensionality; intros gy; apply kernel_matrix_exact. Qed.
Lemma reduced_kern_exact f K eps : reduced_kern_rd id f K eps = reduced_kern f K eps.
Proof. unfold reduced_kern_rd, reduced_kern. f_equal; apply functional_extensionality; intros gx; apply functional_extensionality; intros gy; apply reduced_matrix_exact. Qed.

Lemma compute_exact have_xprec have_gejsv dd old f legendre run argsort K eps cutoff n_sv ng work st svds :
  compute_rd have_xprec have_gejsv dd old (fun _ => id) id (fun _ => f) (fun _ _ _ _ _ => exact_dot) legendre run argsort K eps cutoff n_sv ng work st svds =
  compute have_xprec have_gejsv dd f legendre run argsort K eps cutoff n_sv ng work st svds.
Proof.
  unfold compute_rd, compute. destruct (safe_eps have_xprec dd eps work svds) as [[[safe t] strategy] wn].
  assert (C : forall a b c d e, bind a (fun re => bind (b re) (fun ro => match re, ro with Some re, Some ro => do r <- merge_rd id argsort c d e re ro; Ok (Some r) | _, _ => Ok None end)) =
    bind a (fun re => bind (b re) (fun ro => match re, ro with Some re, Some ro => do r <- merge argsort c d e re ro; Ok (Some r) | _, _ => Ok None end))).
  { intros a b c d e. destruct a as [re|]; [|reflexivity]. cbn [bind]. destruct (b re) as [ro|]; [|reflexivity]. cbn [bind]. destruct re, ro; try reflexivity. rewrite merge_exact. reflexivity. }
  destruct st as [[|]|].
  - rewrite full_kern_exact, init_exact. destruct (sampling_init _ _ _ _) as [S|]; [|reflexivity]. cbn [bind]. rewrite sampled_exact.
    destruct (sampling_matrix S) as [A|]; [|reflexivity]. cbn [bind]. destruct (svd_compute _ _ _ _ A _ _) as [b|]; [|reflexivity]. cbn [bind].
    rewrite truncate_exact. destruct (truncate [b] _ _) as [[|b1 [|b2 l]]|]; try reflexivity. cbn [bind]. apply post_exact.
  - destruct (get_symmetrized K 1) as [Ke|]; [|reflexivity]. cbn [bind]. rewrite reduced_kern_exact, init_exact. destruct (sampling_init _ (reduced_kern f Ke safe) _ _) as [even|]; [|reflexivity]. cbn [bind].
    destruct (get_symmetrized K (-1)) as [Ko|]; [|reflexivity]. cbn [bind]. rewrite reduced_kern_exact, init_exact. destruct (sampling_init _ (reduced_kern f Ko safe) _ _) as [odd|]; [|reflexivity]. cbn [bind].
    rewrite !sampled_exact. destruct (sampling_matrix even) as [Ae|]; [|reflexivity]. cbn [bind]. destruct (svd_compute _ _ _ _ Ae _ _) as [be|]; [|reflexivity]. cbn [bind].
    rewrite sampled_exact. destruct (sampling_matrix odd) as [Ao|]; [|reflexivity]. cbn [bind]. destruct (svd_compute _ _ _ _ Ao _ _) as [bo|]; [|reflexivity]. cbn [bind].
    rewrite truncate_exact. destruct (truncate [be; bo] _ _) as [[|b1 [|b2 [|b3 l]]]|]; try reflexivity. cbn [bind]. rewrite !post_exact. apply C with (b := fun _ => _).
  - destruct (get_symmetrized K 1) as [Ke|]; [|reflexivity]. cbn [bind]. rewrite reduced_kern_exact, init_exact. destruct (sampling_init _ (reduced_kern f Ke safe) _ _) as [even|]; [|reflexivity]. cbn [bind].
    destruct (get_symmetrized K (-1)) as [Ko|]; [|reflexivity]. cbn [bind]. rewrite reduced_kern_exact, init_exact. destruct (sampling_init _ (reduced_kern f Ko safe) _ _) as [odd|]; [|reflexivity]. cbn [bind].
    rewrite !sampled_exact. destruct (sampling_matrix even) as [Ae|]; [|reflexivity]. cbn [bind]. destruct (svd_compute _ _ _ _ Ae _ _) as [be|]; [|reflexivity]. cbn [bind].
    rewrite sampled_exact. destruct (sampling_matrix odd) as [Ao|]; [|reflexivity]. cbn [bind]. destruct (svd_compute _ _ _ _ Ao _ _) as [bo|]; [|reflexivity]. cbn [bind].
    rewrite truncate_exact. destruct (truncate [be; bo] _ _) as [[|b1 [|b2 [|b3 l]]]|]; try reflexivity. cbn [bind]. rewrite !post_exact. apply C with (b := fun _ => _).
Qed.
