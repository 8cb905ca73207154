(** Model of the eigenvalue drivers in reproducibles_python.  The classes helper_ev_approx and
    helper_ev_newt are the same in all drivers that have them; lines refer to
    diffusion_convergence_eigenvalue_approx.py ("approx"),
    diffusion_convergence_eigenvalue_shifted_inverse.py ("shifted") and
    diffusion_convergence_eigenvalue_newt.py ("newt").
    Python exceptions (IndexError, AssertionError, RuntimeError, AttributeError) are [Throw]; the
    entry -1 of the index lists is [None].  NumPy operations on arrays of different length are
    [Throw] (broadcasting of arrays of length one is left out); messages, times, output files and
    the random start value are left out.  Numbers are those of a real field. *)
From mathcomp Require Import all_ssreflect all_algebra.
From Verif Require Import M_Base.
Set Implicit Arguments. Unset Strict Implicit. Unset Printing Implicit Defensive.
Local Open Scope ring_scope.

(** Assignment to and reading of an entry of a list with an index that is not negative. *)
Definition py_set (T : Type) (s : seq T) (i : nat) (v : T) : outcome (seq T) :=
  if (i < size s)%N then Ok (upd s i v) else Throw.
Definition py_get (T : Type) (s : seq T) (i : nat) : outcome T :=
  if drop i s is x :: _ then Ok x else Throw.
(** [f(x) for x in s]. *)
Fixpoint py_list (S T : Type) (f : S -> outcome T) (s : seq S) : outcome (seq T) :=
  if s is x :: s' then obind (f x) (fun y => omap (cons y) (py_list f s')) else Ok [::].

(** ** helper_ev_approx *)
Section Index.
(** hdg_wrapper.size_of_system() and hdg_wrapper.dirichlet_indices(). *)
Variables (N : nat) (dir : seq nat).
(** approx 32-33 short_vector_size; a list times a negative number is empty, as with a size 0. *)
Definition short_vector_size : nat := N - size dir.
(** approx 24-26, the while loop; it adds at most size dir to n_indices. *)
Fixpoint skip_indices (fuel i n_indices : nat) : nat :=
  if fuel is fuel'.+1 then
    if (n_indices < size dir)%N && (i + n_indices == nth 0%N dir n_indices)%N
    then skip_indices fuel' i n_indices.+1 else n_indices
  else n_indices.
(** approx 16-29 __init__: index_vector and vector_index. *)
Definition make_index : outcome (seq (option nat) * seq (option nat)) :=
  obind (foro short_vector_size (fun i st => let: (iv, vi, n_indices) := st in
      let n_indices := skip_indices (size dir) i n_indices in
      obind (py_set iv i (Some (i + n_indices)%N)) (fun iv =>
      obind (py_set vi (i + n_indices)%N (Some i)) (fun vi => Ok (iv, vi, n_indices))))
    (nseq short_vector_size None, nseq N None, 0%N))
  (fun st => if None \in st.1.1 then Throw else Ok st.1).
End Index.

Section Helper.
Variable F : realFieldType.
Implicit Types (v x : seq F) (ix : seq (option nat) * seq (option nat)).
(** approx 34-35 long_vector. *)
Definition long_vector ix v : outcome (seq F) :=
  py_list (fun i => if i is Some i then py_get v i else Ok 0) ix.2.
(** approx 36-37 short_vector; the index -1 cannot occur after the assertion of __init__. *)
Definition short_vector ix x : outcome (seq F) :=
  py_list (fun i => if i is Some i then py_get x i else Throw) ix.1.
(** np.multiply with a number and np.subtract. *)
Definition np_scale v (c : F) : seq F := [seq a * c | a <- v].
Definition np_subtract v v' : outcome (seq F) :=
  if size v == size v' then Ok [seq a.1 - a.2 | a <- zip v v'] else Throw.

(** hdg_wrapper.trace_to_flux(x), trace_to_flux(x, sigma), trace_to_mass_flux(x). *)
Variables (flux0 mass_flux : seq F -> outcome (seq F)) (flux : seq F -> F -> outcome (seq F)) (sigma : F).
Variable ix : seq (option nat) * seq (option nat).
(** approx 38-41 multiply_stiff. *)
Definition ma_stiff v := obind (long_vector ix v) (fun x => obind (flux0 x) (fun y =>
  short_vector ix (np_scale y (-1)))).
(** approx 42-44 multiply_mass. *)
Definition ma_mass v := obind (long_vector ix v) (fun x => obind (mass_flux x) (short_vector ix)).
(** approx 45-48 shifted_mult. *)
Definition ma_shifted v := obind (ma_mass v) (fun m => obind (ma_stiff v) (fun k =>
  np_subtract k (np_scale m sigma))).
(** shifted 38-41 multiply_stiff; the default value of sigma is 0. *)
Definition si_stiff v := obind (long_vector ix v) (fun x => obind (flux x 0) (fun y =>
  omap (fun s => np_scale s (-1)) (short_vector ix y))).
(** shifted 42-45 shifted_mult. *)
Definition si_shifted v := obind (long_vector ix v) (fun x => obind (flux x sigma) (fun y =>
  omap (fun s => np_scale s (-1)) (short_vector ix y))).
(** shifted 46-50 multiply_mass. *)
Definition si_mass v := obind (long_vector ix v) (fun x => obind (flux x sigma) (fun y =>
  obind (flux x 0) (fun y0 => obind (np_subtract y0 y) (fun d =>
  omap (fun s => np_scale s (- 1 / sigma)) (short_vector ix d))))).
End Helper.

(** ** helper_ev_newt *)
Section Newton.
Variable F : realFieldType.
(** np.linalg.norm. *)
Variable norm : seq F -> F.
Implicit Types (x y v : seq F).
Definition np_dot x y : F := \sum_(i < size x) nth 0 x i * nth 0 y i.
(** The last entry, and the vector with another last entry. *)
Definition last_of x : F := nth 0 x (size x).-1.
Definition set_last x (a : F) : seq F := upd x (size x).-1 a.
(** hdg_wrapper.trace_to_flux(x, eig) and jacobian_of_trace_to_flux(y, e, x, eig). *)
Variables (flux : seq F -> F -> outcome (seq F)) (jac : seq F -> F -> seq F -> F -> outcome (seq F)).
(** newt 22-28 eval_residual; the argument is restored before the return. *)
Definition eval_residual x : outcome (seq F) :=
  obind (flux x (last_of x)) (fun vec => Ok (set_last vec (norm (set_last x 0) ^+ 2 - 1))).
(** newt 29-36 eval_jacobian, [val] is self.val. *)
Definition eval_jacobian val v : outcome (seq F) :=
  obind (jac v (last_of v) val (last_of val)) (fun vec =>
    Ok (set_last vec (2%:R * np_dot v (set_last val 0)))).

(** newt 47-51. *)
Definition n_newton_steps : nat := 10.
Definition scaling_fac : F := 10%:R ^- 2.
Definition norm_exact : F := 10%:R ^- 9.
Definition alpha : F := 10%:R^-1.
Definition beta : F := 2%:R^-1.
Definition gamma_min : F := 10%:R ^- 4.

(** sp_lin_alg.gmres(A, residual, tol) with the matvec of eval_jacobian: the vector and num_iter, for
    the current value, right-hand side and tolerance. *)
Variable gmres : seq F -> seq F -> F -> seq F * nat.
Variable res : seq F -> outcome (seq F).
(** np.subtract(vectorSolution, np.multiply(vectorUpdate, gamma)). *)
Definition step x upd gamma : outcome (seq F) := np_subtract x (np_scale upd gamma).
(** newt 111-117: the while loop; [None] is a loop that has not ended. *)
Fixpoint line_search (fuel : nat) x upd (norm_old gamma : F) (st : seq F * seq F) : outcome (option (seq F * seq F)) :=
  if norm st.2 <= (1 - alpha * gamma) * norm_old then Ok (Some st)
  else if fuel is fuel'.+1 then
    if gamma < gamma_min then Throw else
    let gamma := beta * gamma in
    obind (step x upd gamma) (fun x' => obind (res x') (fun r => line_search fuel' x upd norm_old gamma (x', r)))
  else Ok None.
(** 2 ^ 14 > 10 ^ 4. *)
Definition max_halvings : nat := 15.
(** newt 95-119, the body of the loop: the new vectorSolution and residual.  If GMRES fails, the
    name bicgsatb (102) does not exist. *)
Definition newton_step x (r : seq F) : outcome (seq F * seq F) :=
  let: (upd, num_iter) := gmres x r (scaling_fac * norm r) in
  if num_iter != 0%N then Throw else
  obind (np_subtract x upd) (fun x' => obind (res x') (fun r' =>
  obind (line_search max_halvings x upd (norm r) 1 (x', r')) (fun st =>
    if st is Some st then Ok st else UB))).
(** newt 93-123 with [n] steps left, and 125-126. *)
Fixpoint newton_loop (n : nat) x (r : seq F) : outcome (seq F * seq F) :=
  if n is n'.+1 then obind (newton_step x r) (fun st =>
    if norm st.2 < norm_exact then Ok st else newton_loop n' st.1 st.2)
  else Ok (x, r).
Definition newton x : outcome (seq F) :=
  obind (res x) (fun r => obind (newton_loop n_newton_steps x r) (fun st =>
    if norm_exact <= norm st.2 then Throw else Ok st.1)).
(** newt 84-88: the start vector given by another driver is normalised, its last entry kept. *)
Definition normalise x : seq F := set_last (np_scale (set_last x 0) (1 / norm (set_last x 0))) (last_of x).
End Newton.
