(** Model of include/HyperHDG/dense_la.hxx: class SmallMat and the free functions on it.
    A SmallMat<n_rows, n_cols, mat_entry_t> is its [entries_] array (dense_la.hxx:73), a list;
    template sizes are explicit arguments.  Entries come from an arbitrary ring / field
    (simplification: exact arithmetic, no rounding, no NaN).  Aliasing between the two operands of an
    in-place operator is covered because every loop reads only the index it writes. *)
From mathcomp Require Import all_ssreflect all_algebra.
From Verif Require Import M_Base.
Set Implicit Arguments. Unset Strict Implicit. Unset Printing Implicit Defensive.
Local Open Scope ring_scope.

(** dense_la.hxx:88-97 loc_matrix_index (column-major). *)
Definition loc (nr i j : nat) : nat := (j * nr + i)%N.

Section Any.
Variable T : Type.
(** The same with the two hy_asserts (dense_la.hxx:93-94), i.e. a debug build. *)
Definition loc_checked (nr nc i j : nat) : outcome nat :=
  if (i < nr)%N && (j < nc)%N then Ok (loc nr i j) else Abort.
(** dense_la.hxx:115 constructor filling all entries. *)
Definition filled (nr nc : nat) (v : T) : seq T := nseq (nr * nc) v.
(** dense_la.hxx:252-255 operator()(row, column) used on the left of an assignment. *)
Definition mset (nr : nat) (M : seq T) (i j : nat) (v : T) : seq T := upd M (loc nr i j) v.
End Any.

Section Ring.
Variable R : ringType.
Implicit Types (n nr nc ncl ncr nco nv ra ca rb cb i j col : nat) (M A B : seq R) (c : R).

(** dense_la.hxx:109 default constructor: all entries zero. *)
Definition zeros (nr nc : nat) : seq R := filled nr nc 0.
(** dense_la.hxx:241-244 operator()(row, column) const. *)
Definition mget (nr : nat) (M : seq R) (i j : nat) : R := nth 0 M (loc nr i j).

(** dense_la.hxx:215-222 get_column. *)
Definition get_column nr M col : seq R :=
  for_ nr (fun i s => upd s i (mget nr M i col)) (zeros nr 1).
(** dense_la.hxx:229-233 set_column. *)
Definition set_column nr M col (v : seq R) : seq R :=
  for_ nr (fun i m => mset nr m i col (nth 0 v i)) M.

(** dense_la.hxx:299-305 operator==, 316-322 operator!=. *)
Fixpoint eq_loop A B (idx : seq nat) : bool :=
  match idx with
  | [::] => true
  | i :: r => if nth 0 A i != nth 0 B i then false else eq_loop A B r
  end.
Definition mat_eq (n : nat) A B := eq_loop A B (iota 0 n).
Fixpoint ne_loop A B (idx : seq nat) : bool :=
  match idx with
  | [::] => false
  | i :: r => if nth 0 A i != nth 0 B i then true else ne_loop A B r
  end.
Definition mat_ne (n : nat) A B := ne_loop A B (iota 0 n).

(** dense_la.hxx:354-359, 366-371, 378-383: += -= *= with a scalar; n = size(). *)
Definition adds n M c := for_ n (fun i m => upd m i (nth 0 m i + c)) M.
Definition subs n M c := for_ n (fun i m => upd m i (nth 0 m i - c)) M.
Definition muls n M c := for_ n (fun i m => upd m i (nth 0 m i * c)) M.

(** dense_la.hxx:409-425 operator+= with a matrix of n_cols_other columns:
    equal sizes (416-418), or a vector added to every column (419-422). *)
Definition add_eq nr nc nco M (O : seq R) : seq R :=
  if nco == nc then for_ (nr * nc) (fun i m => upd m i (nth 0 m i + nth 0 O i)) M
  else for_ nc (fun j m => for_ nr (fun i m => mset nr m i j (mget nr m i j + nth 0 O i)) m) M.
(** dense_la.hxx:432-448 operator-=. *)
Definition sub_eq nr nc nco M (O : seq R) : seq R :=
  if nco == nc then for_ (nr * nc) (fun i m => upd m i (nth 0 m i - nth 0 O i)) M
  else for_ nc (fun j m => for_ nr (fun i m => mset nr m i j (mget nr m i j - nth 0 O i)) m) M.
(** dense_la.hxx:455-461 operator*= (Hadamard). *)
Definition hada_eq n M (O : seq R) := for_ n (fun i m => upd m i (nth 0 m i * nth 0 O i)) M.

(** dense_la.hxx:499-507 diagonal with one value. *)
Definition diagonal nr nc c : seq R :=
  for_ (minn nr nc) (fun i m => mset nr m i i c) (zeros nr nc).
(** dense_la.hxx:514-523 diagonal with a vector of n_vec values. *)
Definition diagonal_vec nr nc nv (d : seq R) : seq R :=
  for_ nv (fun i m => mset nr m i i (nth 0 d i)) (zeros nr nc).
(** dense_la.hxx:530-538 rep_mat. *)
Definition rep_mat nr nc (v : seq R) : seq R :=
  for_ nc (fun j m => for_ nr (fun i m => mset nr m i j (nth 0 v i)) m) (zeros nr nc).
(** dense_la.hxx:546-555 cross_product. *)
Definition cross_product (l r : seq R) : seq R :=
  let l := nth 0 l in let r := nth 0 r in
  [:: l 1%N * r 2%N - l 2%N * r 1%N; l 2%N * r 0%N - l 0%N * r 2%N; l 0%N * r 1%N - l 1%N * r 0%N].
(** dense_la.hxx:563-572 dyadic_product. *)
Definition dyadic_product nr nc (l r : seq R) : seq R :=
  for_ nc (fun j m => for_ nr (fun i m => mset nr m i j (nth 0 l i * nth 0 r j)) m) (zeros nr nc).
(** dense_la.hxx:579-587 transposed; the result has nc rows. *)
Definition transposed nr nc M : seq R :=
  for_ nc (fun j m => for_ nr (fun i m => mset nc m j i (mget nr M i j)) m) (zeros nc nr).
(** dense_la.hxx:596-604 scalar_product; n = size(). *)
Definition scalar_product n A B : R := for_ n (fun i s => s + nth 0 A i * nth 0 B i) 0.

(** dense_la.hxx:613-634 operator+ of matrices. *)
Definition mat_add nr ncl ncr A B : seq R :=
  if (ncl == ncr) || (ncr == 1%N) then add_eq nr ncl ncr A B else add_eq nr ncr ncl B A.
(** dense_la.hxx:638-661 operator- of matrices. *)
Definition mat_sub nr ncl ncr A B : seq R :=
  if (ncl == ncr) || (ncr == 1%N) then sub_eq nr ncl ncr A B
  else for_ ncr (fun i m => set_column nr m i (sub_eq nr 1 1 A (get_column nr B i))) (zeros nr ncr).
(** dense_la.hxx:665-671 hada_prod. *)
Definition hada_prod n A B := hada_eq n A B.

(** dense_la.hxx:690-700 operator* (A: ra x ca, B: ca x cb). *)
Definition mat_mul ra ca cb A B : seq R :=
  for_ cb (fun colB m => for_ ca (fun colA m => for_ ra (fun rowA m =>
    add_at m (loc ra rowA colB) (mget ra A rowA colA * mget ca B colA colB)) m) m) (zeros ra cb).
(** dense_la.hxx:704-720 mat_times_mat_unfit (A: ra x ca, B: rb x cb). *)
Definition mat_mul_unfit ra ca rb cb A B : seq R :=
  for_ cb (fun colB m => for_ (minn ca rb) (fun colA m => for_ ra (fun rowA m =>
    add_at m (loc ra rowA colB) (mget ra A rowA colA * mget rb B colA colB)) m) m) (zeros ra cb).
(** dense_la.hxx:724-735 transposed_mat_times_mat (A: ra x ca, B: ra x cb). *)
Definition transposed_mat_times_mat ra ca cb A B : seq R :=
  for_ cb (fun colB m => for_ ca (fun colA m => for_ ra (fun rowA m =>
    add_at m (loc ca colA colB) (mget ra A rowA colA * mget ra B rowA colB)) m) m) (zeros ca cb).
(** dense_la.hxx:739-750 mat_times_transposed_mat (A: ra x ca, B: rb x ca). The local result has
    type SmallMat<n_colsA, n_rowsB>, the return type is SmallMat<n_rowsA, n_rowsB>, so the template
    only compiles for ra = ca; the model keeps both sizes. *)
Definition mat_times_transposed_mat ra ca rb A B : seq R :=
  for_ rb (fun rowB m => for_ ca (fun colA m => for_ ra (fun rowA m =>
    add_at m (loc ca colA rowB) (mget ra A rowA colA * mget rb B rowB rowA)) m) m) (zeros ca rb).

(** dense_la.hxx:779-787 scalar - matrix. (759-775, 791-817 copy and call += -= *=.) *)
Definition scal_minus n c M := for_ n (fun i m => upd m i (c - nth 0 M i)) M.
(** dense_la.hxx:927-934 entries_product. *)
Definition entries_product n M : R := for_ n (fun i s => s * nth 0 M i) 1.
End Ring.

Section Field.
Variable F : fieldType.
Implicit Types (n nr nc : nat) (M O : seq F) (c : F).

(** In-place operators that may throw: the boolean says whether SmallMatDivByZeroException was
    thrown, the list is what the operand holds afterwards. *)
(** dense_la.hxx:390-397 operator/= by a scalar. *)
Definition divs_eq n M c : bool * seq F :=
  if c == 0 then (true, M) else (false, for_ n (fun i m => upd m i (nth 0 m i / c)) M).
(** dense_la.hxx:468-478 operator/= by a matrix (entry-wise). *)
Fixpoint hada_div_loop M O (idx : seq nat) : bool * seq F :=
  match idx with
  | [::] => (false, M)
  | i :: r => if nth 0 O i == 0 then (true, M)
              else hada_div_loop (upd M i (nth 0 M i / nth 0 O i)) O r
  end.
Definition hada_div_eq n M O := hada_div_loop M O (iota 0 n).
(** dense_la.hxx:675-681 hada_divi: works on a copy, so the caller's operand is untouched. *)
Definition hada_divi n M O : outcome (seq F) :=
  let: (thrown, q) := hada_div_eq n M O in if thrown then Throw else Ok q.
(** dense_la.hxx:837-843 matrix / scalar, on a copy. *)
Definition mat_div_scal n M c : outcome (seq F) :=
  let: (thrown, q) := divs_eq n M c in if thrown then Throw else Ok q.
(** dense_la.hxx:821-833 scalar / matrix. *)
Fixpoint scal_div_loop c M (q : seq F) (idx : seq nat) : outcome (seq F) :=
  match idx with
  | [::] => Ok q
  | i :: r => if nth 0 M i == 0 then Throw else scal_div_loop c M (upd q i (c / nth 0 M i)) r
  end.
Definition scal_div n c M := scal_div_loop c M M (iota 0 n).
End Field.

Section Ordered.
Variable F : realDomainType.
Implicit Types (n nr nc : nat) (A B M : seq F).

(** dense_la.hxx:334-342 operator<. *)
Fixpoint lt_loop A B (idx : seq nat) : bool :=
  match idx with
  | [::] => false
  | i :: r => if nth 0 A i < nth 0 B i then true
              else if nth 0 B i < nth 0 A i then false else lt_loop A B r
  end.
Definition mat_lt (n : nat) A B := lt_loop A B (iota 0 n).

(** dense_la.hxx:852-875 norm_1 (vector: sum of absolute values; matrix: largest column sum). *)
Definition norm_1 nr nc M : F :=
  if nc == 1%N then for_ nr (fun i s => s + `|nth 0 M i|) 0
  else for_ nc (fun col mx =>
         let nrm := for_ nr (fun row s => s + `|mget nr M row col|) 0 in
         if mx < nrm then nrm else mx) 0.
(** dense_la.hxx:888-911 norm_infty (vector: largest absolute value; matrix: largest row sum). *)
Definition norm_infty nr nc M : F :=
  if nc == 1%N then
    foldl (fun s i => Num.max s `|nth 0 M i|) `|nth 0 M 0| (iota 1 (nr * nc - 1))
  else for_ nr (fun row mx =>
         let nrm := for_ nc (fun col s => s + `|mget nr M row col|) 0 in
         if mx < nrm then nrm else mx) 0.
End Ordered.

Section Rcf.
Variable F : rcfType.
(** dense_la.hxx:879-884 norm_2 of a vector. *)
Definition norm_2 nr (M : seq F) : F := Num.sqrt (scalar_product nr M M).
End Rcf.
