(** Model of include/HyperHDG/wrapper/lapack.hxx and of the LAPACK based part of dense_la.hxx
    (lines 990-1164).  LAPACK itself is external: its routines are parameters that return
    the output arrays and the flag "info == 0".  The double and float overloads (286-294, 313-321,
    335-343, 357-365) are the same text and share one model. *)
From mathcomp Require Import all_ssreflect all_algebra.
From Verif Require Import M_Base M_DenseLA.
Set Implicit Arguments. Unset Strict Implicit. Unset Printing Implicit Defensive.
Local Open Scope ring_scope.

Section Lapack.
Variable F : realFieldType.
Implicit Types (nr nc n rank : nat) (A b h tau Q r : seq F).

(** What dgeqr2_ leaves behind: info == 0?, the overwritten matrix, tau. *)
Record qr_result := QrResult { qr_info : bool; qr_fac : seq F; qr_tau : seq F }.
(** What dgesv_ leaves behind: info == 0?, the overwritten matrix, the overwritten rhs. *)
Record sv_result := SvResult { sv_info : bool; sv_mat : seq F; sv_rhs : seq F }.

(** lapack.hxx:447-453 the Householder vector of column i. *)
Definition house_vec nr h i : seq F :=
  for_ nr (fun j v => upd v j (if (j < i)%N then 0 else if j == i then 1 else nth 0 h (i * nr + j)))
       (zeros F nr 1).
(** lapack.hxx:436-458 and 475-499 get_q_from_lapack_qr_result. *)
Definition get_q nr rank h tau : seq F :=
  let unity := diagonal nr nr 1 in
  for_ rank (fun i q =>
    let v := house_vec nr h i in
    mat_mul nr nr nr q
      (mat_sub nr nr nr unity (muls (nr * nr) (dyadic_product nr nr v v) (nth 0 tau i)))) unity.
(** lapack.hxx:516-525 get_r_from_lapack_qr_result, in place. *)
Definition get_r_in_place nr nc h : seq F :=
  for_ nc (fun i m => for_ nr (fun j m =>
    if (i < j)%N then upd m (i * nr + j) 0 else m) m) h.
(** lapack.hxx:541-553 get_r_from_lapack_qr_result into mat_r (note the stride n_rows in line 550).
    Stores outside the n_cols*n_cols array are undefined behaviour. *)
Definition get_r nr nc h r : outcome (seq F) :=
  foro nc (fun i r => foro nc (fun j r =>
    if (i < j)%N then store r (i * nr + j) 0
    else store r (i * nc + j) (nth 0 h (i * nr + j))) r) r.

Section WithQr.
Variable geqr2 : nat -> nat -> seq F -> qr_result.

(** lapack.hxx:393-404 lapack_det; dense_la.hxx:1146-1150 determinant. Returns the determinant and
    the matrix as it is left behind. *)
Definition lapack_det nr nc A : outcome (F * seq F) :=
  let q := geqr2 nr nc A in
  if qr_info q then
    Ok (for_ (minn nr nc) (fun i d => d * - nth 0 (qr_fac q) (i * nr.+1)) 1, qr_fac q)
  else Throw.
(** dense_la.hxx:1159-1164 determinant of a constant matrix (works on a copy). *)
Definition mat_determinant nr nc A : outcome F := omap fst (lapack_det nr nc A).

(** lapack.hxx:612-624 lapack_qr_decomp: new mat, Q, R. The old contents of Q are overwritten. *)
Definition lapack_qr_decomp nr nc A r : outcome (seq F * seq F * seq F) :=
  let q := geqr2 nr nc A in
  if qr_info q then
    omap (fun r' => (get_r_in_place nr nc (qr_fac q),
                     get_q nr (minn nr nc) (qr_fac q) (qr_tau q), r'))
         (get_r nr nc (qr_fac q) r)
  else Throw.
(** lapack.hxx:568-576 and dense_la.hxx:1034-1049 qr_decomp_q. *)
Definition qr_decomp_q nr nc A : outcome (seq F) :=
  let q := geqr2 nr nc A in
  if qr_info q then Ok (get_q nr (minn nr nc) (qr_fac q) (qr_tau q)) else Throw.

(** dense_la.hxx:1071-1095 the sign factors. *)
Definition qr_factors nr nc r : seq F :=
  let f0 := filled nr 1 (1 : F) in
  let f1 := if (nr %% 2 == 1)%N then
              let p := if nc == nr then 0%N else (nr - 1)%N in upd f0 p (nth 0 f0 p * -1)
            else f0 in
  let: (f2, sw) := foldl (fun st i => if mget nc r i i < 0
                     then (upd st.1 i (nth 0 st.1 i * -1), ~~ st.2) else st)
                   (f1, false) (iota 1 (nc - 1)) in
  if sw then upd f2 0 (nth 0 f2 0 * -1) else f2.
(** dense_la.hxx:1097-1101. *)
Definition scale_q nr f Q : seq F :=
  for_ nr (fun i q => if nth 0 f i < 0
    then for_ nr (fun j q => mset nr q j i (mget nr q j i * nth 0 f i)) q else q) Q.
(** dense_la.hxx:1103-1107. *)
Definition scale_r nc f r : seq F :=
  for_ nc (fun i q => if nth 0 f i < 0
    then for_ nc (fun j q => mset nc q i j (mget nc q i j * nth 0 f i)) q else q) r.
(** dense_la.hxx:1064-1108 qr_decomp: new mat, Q, R. *)
Definition qr_decomp nr nc A r : outcome (seq F * seq F * seq F) :=
  omap (fun t => let: (m, q, r) := t in
                 let f := qr_factors nr nc r in (m, scale_q nr f q, scale_r nc f r))
       (lapack_qr_decomp nr nc A r).
End WithQr.

Section WithSv.
Variable gesv : nat -> nat -> seq F -> seq F -> sv_result.
(** lapack.hxx:380-387 lapack_solve and dense_la.hxx:1007-1012 operator/ for non-constant operands:
    the returned value, and the operands A and b as they are left behind. *)
Definition solve_mut n nc b A : outcome (seq F) * (seq F * seq F) :=
  let s := gesv n nc A b in
  (if sv_info s then Ok (sv_rhs s) else Throw, (sv_mat s, sv_rhs s)).
(** dense_la.hxx:1016-1023 operator/ for constant operands: copies are passed on, so the operands
    left behind are the original ones. *)
Definition solve_const n nc b A : outcome (seq F) * (seq F * seq F) :=
  let helperb := b in let helperA := A in ((solve_mut n nc helperb helperA).1, (A, b)).
End WithSv.
End Lapack.
