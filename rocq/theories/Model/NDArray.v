(** The part of numpy's n-dimensional arrays that sparse-ir relies on: transposition
    by np.moveaxis, ravel and reshape in C order, and matmul. *)
From Coq Require Import ZArith Arith Bool Reals.
From Coquelicot Require Import Coquelicot.
From Coq Require Import List.
From Verif.Model Require Import Base Util Num FT.
Import ListNotations.
Open Scope R_scope.

(** An array: its shape, and its elements by index tuple. *)
Record nd (A : Type) := Nd { shp : list nat; elt : list nat -> A }.
Arguments Nd {A} shp elt.
Arguments shp {A} n.
Arguments elt {A} n.

Definition nd_map {A B} (f : A -> B) (x : nd A) : nd B := Nd (shp x) (fun i => f (elt x i)).
Definition ndim {A} (x : nd A) : nat := length (shp x).

(** normalize_axis_index: axes count from the end if negative. *)
Definition normalize_axis (n : nat) (axis : Z) : res nat :=
  if ((- Z.of_nat n <=? axis) && (axis <? Z.of_nat n))%Z
  then Ok (Z.to_nat (if (axis <? 0)%Z then axis + Z.of_nat n else axis)) else Raise AxisError.

(** Position of j in a list (its length if absent). *)
Fixpoint index_of (j : nat) (l : list nat) : nat :=
  match l with [] => O | k :: l' => if Nat.eqb j k then O else S (index_of j l') end.

(** np.transpose(x, order): axis k of the result is axis order[k] of x. *)
Definition transpose {A} (order : list nat) (x : nd A) : nd A :=
  Nd (map (fun k => nth k (shp x) 0%nat) order)
     (fun idx => elt x (map (fun j => nth (index_of j order) idx 0%nat) (seq 0 (length order)))).

(** np.moveaxis(x, src, dst): [order] is the list of all other axes into which
    src is inserted at position dst. *)
Definition move_order (n src dst : nat) : list nat :=
  let order := filter (fun k => negb (Nat.eqb k src)) (seq 0 n) in
  firstn dst order ++ src :: skipn dst order.
Definition moveaxis {A} (x : nd A) (src dst : Z) : res (nd A) :=
  do s <- normalize_axis (ndim x) src;
  do d <- normalize_axis (ndim x) dst;
  Ok (transpose (move_order (ndim x) s d) x).

(** Matrices. *)
Record mat := Mat { mr : nat; mc : nat; me : nat -> nat -> C }.

(** m @ x: the last axis of a vector, the second to last of a stack of matrices;
    ValueError for scalars and for a mismatch of lengths. *)
Definition mm (m : mat) (x : nd C) : res (nd C) :=
  match rev (shp x) with
  | [] => Raise ValueError
  | [n] =>
      if negb (Nat.eqb n (mc m)) then Raise ValueError else
      Ok (Nd [mr m] (fun idx => csumn (mc m) (fun l => Cmult (me m (nth 0 idx 0%nat) l) (elt x [l]))))
  | k :: n :: pre =>
      if negb (Nat.eqb n (mc m)) then Raise ValueError else
      let p := length pre in
      Ok (Nd (rev pre ++ [mr m; k])
             (fun idx => csumn (mc m) (fun l => Cmult (me m (nth p idx 0%nat) l)
                                                      (elt x (firstn p idx ++ [l; nth (S p) idx 0%nat])))))
  end.

(** C order: the position of an index tuple in ravel(x), and the inverse. *)
Fixpoint prod (shape : list nat) : nat :=
  match shape with [] => 1%nat | n :: s => (n * prod s)%nat end.
Fixpoint flat_index (shape idx : list nat) : nat :=
  match shape, idx with
  | _ :: s, i :: idx' => (i * prod s + flat_index s idx')%nat
  | _, _ => O
  end.
Fixpoint unravel_index (shape : list nat) (k : nat) : list nat :=
  match shape with
  | [] => []
  | _ :: s => (k / prod s)%nat :: unravel_index s (k mod prod s)
  end.
Definition ravel {A} (x : nd A) : list A :=
  map (fun k => elt x (unravel_index (shp x) k)) (seq 0 (prod (shp x))).

(** The two-dimensional array with the given rows, reshaped to (rows,) + shape. *)
Definition reshape_rows {A} (d : A) (M : list (list A)) (shape : list nat) : nd A :=
  Nd (length M :: shape) (fun idx => match idx with
                                     | l :: idx' => nth (flat_index shape idx') (nth l M []) d
                                     | [] => d
                                     end).

(** _util.py:28-35, the decorator with last_dim=True around a function of a 1-D
    array that returns a two-dimensional array. *)
Definition raveled {A B} (d : B) (f : list A -> res (list (list B))) (x : nd A) : res (nd B) :=
  do M <- f (ravel x); Ok (reshape_rows d M (shp x)).

(** The same with last_dim=False (_util.py:36-37): the function returns one row
    per element, and the result has shape x.shape + (columns,). *)
Definition raveled_first {A B} (d : B) (columns : nat) (f : list A -> res (list (list B))) (x : nd A) : res (nd B) :=
  do M <- f (ravel x);
  Ok (Nd (shp x ++ [columns])
         (fun idx => nth (last idx 0%nat) (nth (flat_index (shp x) (removelast idx)) M []) d)).

(** poly.py:405-417, _PowerModel.giw on a raveled array of integers: one row per
    frequency, one column per function; [moments] lists the moments of each
    function. *)
Definition power_giw (moments : list (list R)) (n : list Z) : res (list (list C)) :=
  do ns <- check_reduced_matsubara (IntArr n) None; Ok (map (fun n => map (fun m => giw m n) moments) ns).
