(** What the constructor of a basis returns in rounded arithmetic. *)
From Coq Require Import Reals ZArith Arith Bool Lra Lia String.
From Coquelicot Require Import Coquelicot.
From Coq Require Import List Sorting.Sorted.
From Verif.Model Require Import Base Util Num Poly PolyIEEE FT SVE Basis BasisIEEE.
From Verif.Spec Require Import SPoly SFT SSVE SBasis SKernelIEEE SGaussIEEE SPolyIEEE SBasisIEEE.
From Verif.Proofs Require Import BaseFacts UtilFacts SumFacts LegFacts PPolyFacts SVEFacts KernelRoundCall FTCall FTProps BasisFacts BasisInit GaussRound PolyRound BasisRoundPiece BasisRoundGeom.
Import ListNotations.
Open Scope R_scope.
Notation length := List.length.

(** * part *)
Definition cut_eps (rd : R -> R) (e : R) (s : list R) : R := rd (e * nth 0 s 0) / nth 0 s 0.

Lemma part_rd_part rd r eps ms e : Forall (fun x => 0 < x) (ss r) -> ss r <> [] -> eff_eps eps (seps r) = Some e ->
  part_rd rd r eps ms = part r (Some (cut_eps rd e (ss r))) ms.
Proof.
  intros Hp Hs He. unfold part_rd, part, cut_eps. destruct (ss r) as [|s0 st]; [easy|]. cbn [nth]. inversion Hp as [|? ? P _]; subst.
  replace (match eps with Some e0 => Some e0 | None => seps r end) with (Some e) by (destruct eps; auto).
  replace (match eps with None => seps r | Some e0 => Some e0 end) with (Some e) by (destruct eps; auto).
  replace (rd (e * s0) / s0 * s0) with (rd (e * s0)) by (field; lra). reflexivity.
Qed.

Lemma part_rd_none rd r eps ms : ss r <> [] -> eff_eps eps (seps r) = None -> part_rd rd r eps ms = Raise TypeError.
Proof. intros Hs He. unfold part_rd. destruct (ss r); [easy|]. destruct eps; [discriminate|]. cbn in He. rewrite He. reflexivity. Qed.

(** * The Fourier transform can be built *)
Lemma vcall_some p x : (0 < gnseg (vgeom p))%nat -> (0 < glen (vgeom p))%nat -> gxmin (vgeom p) <= x <= gxmax (vgeom p) -> exists ys, vcall p x = Ok ys.
Proof.
  intros Hn Hl Hx. unfold vcall, split, in_range. rewrite (proj2 (Rleb_true _ _) (proj1 Hx)), (proj2 (Rleb_true _ _) (proj2 Hx)). cbn [andb negb].
  destruct (gnseg (vgeom p)); [lia|]. cbn [bind]. destruct (glen (vgeom p)); [lia|]. eexists. reflexivity.
Qed.
Lemma derivs_some k : forall p x, (0 < gnseg (vgeom p))%nat -> (0 < glen (vgeom p))%nat -> gxmin (vgeom p) <= x <= gxmax (vgeom p) -> exists ys, derivs_from k p x = Ok ys.
Proof.
  induction k as [|k IH]; intros p x Hn Hl Hx; [eexists; reflexivity|]. cbn [derivs_from].
  assert (Hl' : (0 < glen (vgeom (vderiv 1 p)))%nat) by (cbn [vderiv vgeom gderiv glen]; apply legder_len_pos; exact Hl).
  destruct (vcall_some (vderiv 1 p) x Hn Hl' Hx) as [v ->]. destruct (IH (vderiv 1 p) x Hn Hl' Hx) as [w ->]. eexists. reflexivity.
Qed.
Lemma ft_init_some p q a : (0 < gnseg (vgeom p))%nat -> (0 < glen (vgeom p))%nat -> gxmin (vgeom p) = -1 -> gxmax (vgeom p) = 1 -> q <> FAny ->
  exists f, ft_init p q (AsympAt a) None = Ok f.
Proof.
  intros Hn Hl X1 X2 Hq. unfold ft_init. rewrite X1, X2. unfold Reqb. destruct (Req_EM_T (-1) (-1)); [|lra]. destruct (Req_EM_T 1 1); [|lra]. cbn [negb orb].
  unfold power_model, derivs. assert (Hx : gxmin (vgeom p) <= 1 <= gxmax (vgeom p)) by lra. destruct (vcall_some p 1 Hn Hl Hx) as [v ->]. destruct (derivs_some (gorder (vgeom p) - 1) p 1 Hn Hl Hx) as [w ->]. cbn [bind].
  destruct q; [contradiction| |]; cbn [statsign bind]; eexists; reflexivity.
Qed.
Lemma ft_slice_some p q a f stop : ft_init p q (AsympAt a) None = Ok f ->
  exists f', ft_slice f stop = Ok f' /\ fgeom f' = vgeom p /\ fcols f' = slice_to stop (vcols p) /\ ffreq f' = q /\ fasymp f' = Some a.
Proof.
  intros H. pose proof (ft_init_val _ _ _ _ _ H) as (G & K & Q & X1 & X2 & A & Mo & P). destruct P as [m P]; [discriminate|reflexivity|]. rewrite P in Mo.
  unfold ft_slice, ft_init. cbn [vgeom vcols]. rewrite G, K, Q, A, Mo, X1, X2. unfold Reqb. destruct (Req_EM_T (-1) (-1)); [|lra]. destruct (Req_EM_T 1 1); [|lra]. cbn [negb orb asymp_of option_map bind].
  eexists. split; [reflexivity|]. cbn. auto.
Qed.

(** * The constructor *)
Definition u_moved rd beta (r : sve_result) : geom := moved_geom rd (rd (beta / 2)) (fun x => rd (x + 1)) (su r).
Definition v_moved rd wmax (r : sve_result) : geom := moved_geom rd wmax (fun y => y) (sv r).
Definition s_factor (rd : R -> R) (pw : R -> Z -> R) (beta wmax : R) (yp : Z) : R := rd (rd (sqrt (rd (rd (beta / 2) * wmax))) * pw wmax (- yp)%Z).
Definition full_rd rd (r : sve_result) beta : vpoly := VPoly (vgeom (su r)) (scaled_cols_rd rd (rd (sqrt beta)) (vcols (su r))).
Definition acc_rd (rd : R -> R) (s : list R) (n : nat) : R := rd (acc_val s n).

Definition the_basis_rd rd pw st beta wmax k r n f f' : basis :=
  Basis st beta wmax k r (acc_rd rd (ss r) n)
    (VPoly (u_moved rd beta r) (firstn n (vcols (su r))))
    (map (fun x => rd (s_factor rd pw beta wmax (kyp k) * x)) (firstn n (ss r)))
    (VPoly (v_moved rd wmax r) (firstn n (vcols (sv r)))) f f'.

Lemma moved_take rd T' rs n p : moved_geom rd T' rs (take n p) = moved_geom rd T' rs p.
Proof. reflexivity. Qed.

Section Init.
Variables (u eta : R) (rd : R -> R) (pw : R -> Z -> R) (compute : kern -> option R -> res sve_result).

Lemma acc_match s n : (0 < n <= length s)%nat ->
  match firstn n s with
  | [] => Raise IndexError
  | s0 :: _ => if (length (firstn n s) <? length s)%nat then Ok (rd (nth (length (firstn n s)) s 0 / s0)) else Ok (rd (last (firstn n s) 0 / s0))
  end = Ok (acc_rd rd s n).
Proof.
  intros [H1 H2]. assert (Hfn : length (firstn n s) = n) by (apply firstn_length_le; auto). rewrite Hfn.
  assert (E0 : forall (X : R -> res R), match firstn n s with [] => Raise IndexError | s0 :: _ => X s0 end = X (nth 0 s 0)).
  { intros X. destruct s as [|s0 st]; [cbn in H2; lia|]. destruct n; [lia|]. reflexivity. }
  rewrite (E0 (fun s0 => if (n <? length s)%nat then Ok (rd (nth n s 0 / s0)) else Ok (rd (last (firstn n s) 0 / s0)))).
  unfold acc_rd, acc_val. destruct (n <? length s)%nat; [reflexivity|]. do 3 f_equal. rewrite last_nth, Hfn. apply nth_firstn. lia.
Qed.

(** Everything there is to know about a successful construction. *)
Lemma basis_rd_inv st beta wmax eps ms ker sve b :
  basis_init_rd rd pw compute st beta wmax eps ms ker sve = Ok b -> expansion_near u eta (bsve b) ->
  exists k r lam q e n f f',
    0 < beta /\ 0 <= wmax /\ get_kernel_rd rd st (rd (beta * wmax)) ker = Ok k /\
    match sve with Some r' => Ok r' | None => compute k eps end = Ok r /\ expansion_near u eta r /\
    eff_eps eps (seps r) = Some e /\ n = part_size (ss r) (cut_eps rd e (ss r)) ms /\ (0 < n <= length (ss r))%nat /\
    klam k = Some lam /\ even_odd st = Ok q /\ weakly (gknots (u_moved rd beta r)) /\ weakly (gknots (v_moved rd wmax r)) /\
    ft_init (full_rd rd r beta) q (AsympAt (rd (40 * lam))) None = Ok f /\ ft_slice f (Z.of_nat n) = Ok f' /\
    b = the_basis_rd rd pw st beta wmax k r n f f'.
Proof.
  intros H Hok. unfold basis_init_rd in H.
  destruct (Rltb 0 beta) eqn:Eb; [|discriminate]. apply Rltb_true in Eb. cbn [negb] in H.
  destruct (Rleb 0 wmax) eqn:Ew; [|discriminate]. apply Rleb_true in Ew. cbn [negb] in H.
  destruct (get_kernel_rd rd st (rd (beta * wmax)) ker) as [k|] eqn:Ek; [|discriminate]. cbn [bind] in H.
  destruct (match sve with Some r' => Ok r' | None => compute k eps end) as [r|] eqn:Er; [|discriminate]. cbn [bind] in H.
  destruct (part_rd rd r eps ms) as [[[u0 s] v0]|] eqn:Ep; [|discriminate]. cbn [bind] in H.
  destruct (match s with [] => Raise IndexError | s0 :: _ => _ end) as [acc|] eqn:Ea; [|discriminate]. cbn [bind] in H.
  destruct (rescaled_rd rd u0 _ _) as [u'|] eqn:Eu; [|discriminate]. cbn [bind] in H.
  destruct (rescaled_rd rd v0 _ _) as [v'|] eqn:Ev; [|discriminate]. cbn [bind] in H.
  destruct (klam k) as [lam|] eqn:El; [|discriminate].
  destruct (even_odd st) as [q|] eqn:Eq; [|discriminate]. cbn [bind] in H.
  destruct (ft_init _ q _ None) as [f|] eqn:Ef; [|discriminate]. cbn [bind] in H.
  destruct (ft_slice f _) as [f'|] eqn:Ef'; [|discriminate]. cbn [bind] in H.
  assert (Hbr : bsve b = r) by (injection H as <-; reflexivity). rewrite Hbr in Hok.
  pose proof Hok as (_ & _ & Lu & Lv & Hs & Hp & _).
  destruct (eff_eps eps (seps r)) as [e|] eqn:Ee; [|rewrite part_rd_none in Ep by auto; discriminate].
  rewrite (part_rd_part rd r eps ms e Hp Hs Ee) in Ep.
  destruct (part_inv r _ ms _ Hs Ep) as (e' & He' & Hfl). cbn in He'. injection He' as <-.
  rewrite (part_val r (Some (cut_eps rd e (ss r))) ms (cut_eps rd e (ss r)) Lu Lv Hs eq_refl Hfl) in Ep. injection Ep as <- <- <-.
  set (n := part_size (ss r) (cut_eps rd e (ss r)) ms) in *.
  assert (Hpos : (0 < n)%nat) by (destruct n; [discriminate|lia]).
  assert (Hle : (n <= length (ss r))%nat) by apply part_size_le.
  rewrite acc_match in Ea by lia. injection Ea as <-.
  apply (rescaled_inv rd (rd (beta / 2)) (fun x => rd (x + 1))) in Eu. destruct Eu as [-> Wu].
  apply (rescaled_inv rd wmax (fun y => y)) in Ev. destruct Ev as [-> Wv].
  rewrite firstn_length_le in Ef' by exact Hle.
  exists k, r, lam, q, e, n, f, f'. do 14 (split; [first [assumption|reflexivity|lia]|]). injection H as <-. reflexivity.
Qed.

Lemma basis_rd_ok st beta wmax eps ms ker sve k r lam q e n :
  0 < beta -> 0 <= wmax -> get_kernel_rd rd st (rd (beta * wmax)) ker = Ok k ->
  match sve with Some r' => Ok r' | None => compute k eps end = Ok r -> expansion_near u eta r ->
  eff_eps eps (seps r) = Some e -> ~ float_below ms (nabove (cut_eps rd e (ss r)) (ss r)) -> n = part_size (ss r) (cut_eps rd e (ss r)) ms -> (0 < n)%nat ->
  rescaled_rd rd (take n (su r)) (fun x => rd (rd (beta / 2) * rd (x + 1))) (rd (beta / 2)) = Ok (VPoly (u_moved rd beta r) (firstn n (vcols (su r)))) ->
  rescaled_rd rd (take n (sv r)) (fun y => rd (wmax * y)) wmax = Ok (VPoly (v_moved rd wmax r) (firstn n (vcols (sv r)))) ->
  klam k = Some lam -> even_odd st = Ok q ->
  exists f f', basis_init_rd rd pw compute st beta wmax eps ms ker sve = Ok (the_basis_rd rd pw st beta wmax k r n f f').
Proof.
  intros Hb Hw Hk Hr Hok He Hfl Hn Hpos Hu Hv Hlam Hq. pose proof Hok as (Su & _ & Lu & Lv & Hs & Hp & _).
  assert (Hqa : q <> FAny). { unfold even_odd in Hq. destruct (String.eqb st "F"); [congruence|]. destruct (String.eqb st "B"); congruence. }
  destruct Su as ((N0 & _) & X1 & X2 & _ & Ho & Hlo).
  destruct (ft_init_some (full_rd rd r beta) q (rd (40 * lam))) as [f Ef]; auto. { cbn [full_rd vgeom]. lia. }
  destruct (ft_slice_some _ _ _ _ (Z.of_nat n) Ef) as (f' & Ef' & _). exists f, f'.
  unfold basis_init_rd. rewrite (proj2 (Rltb_true 0 beta) Hb), (proj2 (Rleb_true 0 wmax) Hw). cbn [negb]. rewrite Hk. cbn [bind]. rewrite Hr. cbn [bind].
  rewrite (part_rd_part rd r eps ms e Hp Hs He). rewrite (part_val r (Some (cut_eps rd e (ss r))) ms (cut_eps rd e (ss r)) Lu Lv Hs eq_refl Hfl). rewrite <- Hn. cbn [bind].
  assert (Hle : (n <= length (ss r))%nat) by (rewrite Hn; apply part_size_le).
  rewrite acc_match by lia. cbn [bind]. rewrite Hu. cbn [bind]. rewrite Hv. cbn [bind]. rewrite Hlam, Hq. cbn [bind].
  fold (full_rd rd r beta). rewrite Ef. cbn [bind]. rewrite firstn_length_le by exact Hle. rewrite Ef'. reflexivity.
Qed.
End Init.
