(** Riemann integrals, derivatives and continuity of real functions: Coquelicot
    lemmas specialised to R. *)
From Coquelicot Require Import Coquelicot.
From Coq Require Import Reals Arith Lia Lra.
From Verif.Model Require Import Num.
From Verif.Proofs Require Import SumFacts.
Open Scope R_scope.

Ltac toR := match goal with |- @eq _ ?a ?b => change (@eq R a b) end.

Lemma RInt_val (f : R -> R) (a b v : R) : is_RInt f a b v -> RInt f a b = v.
Proof. apply (is_RInt_unique (V := R_CompleteNormedModule)). Qed.
Lemma is_RInt_val (f : R -> R) (a b : R) : ex_RInt f a b -> is_RInt f a b (RInt f a b).
Proof. apply (RInt_correct (V := R_CompleteNormedModule)). Qed.
Lemma is_RInt_fext (f g : R -> R) (a b v : R) : (forall x, f x = g x) -> is_RInt f a b v -> is_RInt g a b v.
Proof. intros E H. refine (is_RInt_ext _ _ _ _ _ _ H). intros; apply E. Qed.
Lemma is_RInt_ext_in (f g : R -> R) (a b v : R) :
  a <= b -> (forall x, a < x < b -> f x = g x) -> is_RInt f a b v -> is_RInt g a b v.
Proof.
  intros Hab E H. refine (is_RInt_ext _ _ _ _ _ _ H).
  rewrite Rmin_left, Rmax_right by lra. intros; apply E; auto.
Qed.
Lemma is_RInt_addR (f g : R -> R) (a b u v : R) :
  is_RInt f a b u -> is_RInt g a b v -> is_RInt (fun x => f x + g x) a b (u + v).
Proof. apply (is_RInt_plus (V := R_CompleteNormedModule)). Qed.
Lemma is_RInt_subR (f g : R -> R) (a b u v : R) :
  is_RInt f a b u -> is_RInt g a b v -> is_RInt (fun x => f x - g x) a b (u - v).
Proof. apply (is_RInt_minus (V := R_CompleteNormedModule)). Qed.
Lemma is_RInt_scalR (f : R -> R) (a b u c : R) :
  is_RInt f a b u -> is_RInt (fun x => c * f x) a b (c * u).
Proof. apply (is_RInt_scal (V := R_CompleteNormedModule)). Qed.
Lemma is_RInt_constR (a b c : R) : is_RInt (fun _ => c) a b ((b - a) * c).
Proof. apply (is_RInt_const (V := R_CompleteNormedModule)). Qed.
Lemma is_RInt_chasles (f : R -> R) (a b c u v : R) :
  is_RInt f a b u -> is_RInt f b c v -> is_RInt f a c (u + v).
Proof. apply (is_RInt_Chasles (V := R_CompleteNormedModule)). Qed.
Lemma is_RInt_deriv (F f : R -> R) (a b : R) :
  (forall x, is_derive F x (f x)) -> (forall x, continuous f x) -> is_RInt f a b (F b - F a).
Proof. intros H C. apply (is_RInt_derive (V := R_CompleteNormedModule) F f); intros; auto. Qed.
(** Substitution x = u t + v. *)
Lemma is_RInt_lin (f : R -> R) (u v a b l : R) :
  is_RInt f (u * a + v) (u * b + v) l -> is_RInt (fun t => u * f (u * t + v)) a b l.
Proof. apply (is_RInt_comp_lin (V := R_CompleteNormedModule)). Qed.

Lemma Derive_eta (f : R -> R) (x d : R) : is_derive f x d -> Derive (fun t : R => f t) x = d.
Proof. intros H. apply is_derive_unique. exact H. Qed.

Lemma ex_RInt_cont (f : R -> R) a b : (forall x, continuous f x) -> ex_RInt f a b.
Proof. intros H. apply (ex_RInt_continuous (V := R_CompleteNormedModule)). intros; apply H. Qed.

Lemma continuous_mult2 (f g : R -> R) x : continuous f x -> continuous g x -> continuous (fun t => f t * g t) x.
Proof. intros. apply (continuous_mult (K := R_AbsRing) f g); auto. Qed.

Lemma continuous_plus2 (f g : R -> R) x : continuous f x -> continuous g x -> continuous (fun t => f t + g t) x.
Proof. intros. apply (continuous_plus (K := R_AbsRing) (V := R_NormedModule) f g); auto. Qed.

Lemma continuous_scal2 c (f : R -> R) x : continuous f x -> continuous (fun t => c * f t) x.
Proof. intros. apply continuous_mult2; auto. apply continuous_const. Qed.

Lemma continuous_sumn n (f : nat -> R -> R) x :
  (forall i, (i < n)%nat -> continuous (f i) x) -> continuous (fun t => sumn n (fun i => f i t)) x.
Proof.
  induction n; intros H; simpl; [apply continuous_const|].
  apply continuous_plus2; [apply IHn; intros; apply H; lia|apply H; lia].
Qed.

Lemma is_RInt_eq (f : R -> R) a b (v w : R) : is_RInt f a b v -> v = w -> is_RInt f a b w.
Proof. intros H <-; exact H. Qed.

Lemma RInt_sumn n (f : nat -> R -> R) a b :
  (forall i, (i < n)%nat -> ex_RInt (f i) a b) ->
  is_RInt (fun t => sumn n (fun i => f i t)) a b (sumn n (fun i => RInt (f i) a b)).
Proof.
  induction n; intros H; simpl.
  - apply (is_RInt_eq _ a b (scal (b - a) 0)); [apply (@is_RInt_const R_CompleteNormedModule)|].
    unfold scal; simpl; unfold mult; simpl; ring.
  - apply (is_RInt_plus (V := R_CompleteNormedModule)).
    + apply IHn. intros; apply H; lia.
    + apply (RInt_correct (V := R_CompleteNormedModule)). apply H; lia.
Qed.

Lemma is_derive_sumn n (f df : nat -> R -> R) x :
  (forall i, (i < n)%nat -> is_derive (f i) x (df i x)) ->
  is_derive (fun t => sumn n (fun i => f i t)) x (sumn n (fun i => df i x)).
Proof.
  induction n; intros H; simpl.
  - apply (is_derive_const (V := R_NormedModule)).
  - apply (is_derive_plus (V := R_NormedModule)); [apply IHn; intros; apply H; lia|apply H; lia].
Qed.
