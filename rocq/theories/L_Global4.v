(** Unique solvability of the global system. *)
From mathcomp Require Import all_ssreflect all_algebra zify.
From Verif Require Import M_Base L_Base M_Global S_Global L_Global L_Global2 L_Global3.
Set Implicit Arguments. Unset Strict Implicit. Unset Printing Implicit Defensive.
Import Order.TTheory GRing.Theory Num.Theory.
Local Open Scope ring_scope.

Section Solvable.
Variables (F : realFieldType) (E : Type) (dim n n_nodes : nat).
Local Notation m := (2 * dim)%N.
Local Notation N := (n_nodes * n)%N.
Variables (edges : seq (seq nat * E)) (f : local_fun F E) (phi : E -> 'M[F]_(m, n) -> 'M[F]_(m, n)).
Variables (junk : seq (seq F)) (dir : seq nat).
Hypotheses (hf : computes f phi) (hl : local_linear phi) (hv : valid_graph dim n_nodes edges).
Hypotheses (hj : size junk = m) (hd : all (fun i => i < N)%N dir).
Local Notation op x := (elliptic_flux n N dir junk edges f x).
Implicit Types (x r : seq F) (v : 'rV[F]_N).
Definition off_dir x := forall d, d \in dir -> nth 0 x d = 0.

(** Vector with the entries at [dir] replaced by zero. *)
Definition free_part v : seq F :=
  mkseq (fun d => if d \in dir then 0 else if insub d is Some i then v 0 i else 0) N.
Definition sys_map v : 'rV[F]_N :=
  \row_(d < N) if (d : nat) \in dir then v 0 d else global_op edges phi (free_part v) d.
Lemma nth_free v (d : 'I_N) : nth 0 (free_part v) d = if (d : nat) \in dir then 0 else v 0 d.
Proof. by rewrite nth_mkseq // valK. Qed.
Lemma free_axpy a u v : free_part (a *: u + v) = axpy a (free_part u) (free_part v).
Proof.
apply: (@eq_from_nth _ 0); rewrite ?size_axpy ?size_mkseq // => d hN.
rewrite nth_axpy ?size_mkseq // (nth_free _ (Ordinal hN)) !(nth_free _ (Ordinal hN)) !mxE.
by case: ifP; rewrite // mulr0 addr0.
Qed.
Lemma sys_map_linear : linear sys_map.
Proof.
move=> a u v; apply/rowP => d; rewrite !mxE.
case: ifP => // _; rewrite free_axpy (global_linear _ _ _ _ hv hl) //.
by rewrite size_mkseq.
Qed.
Definition sys_lin := Linear sys_map_linear.
Definition row_of x : 'rV[F]_N := \row_d nth 0 x d.

Lemma free_row x : size x = N -> off_dir x -> free_part (row_of x) = x.
Proof.
move=> sx hx; apply: (@eq_from_nth _ 0); rewrite ?size_mkseq ?sx // => d hN.
rewrite (nth_free _ (Ordinal hN)) mxE /=; case: ifP => // hin.
by rewrite hx.
Qed.
Lemma free_off v : off_dir (free_part v).
Proof.
move=> d hin; have hN : (d < N)%N by move/allP: hd => /(_ d hin).
by rewrite nth_mkseq // hin.
Qed.

Lemma op_lin x : size x = N -> off_dir x -> exists u, [/\ op x = Ok u, size u = N,
  off_dir u & forall d : 'I_N, (d : nat) \notin dir -> nth 0 u d = sys_map (row_of x) 0 d].
Proof.
move=> sx hx; have [u [hu su eu]] := elliptic_fluxE hf hv hj sx hd.
exists u; split => //; first by rewrite su.
  by move=> d hin; rewrite eu hin.
by move=> d hin; rewrite eu mxE (negbTE hin) free_row.
Qed.

Hypothesis inj : forall x, size x = N -> off_dir x -> op x = Ok (nseq N 0) -> x = nseq N 0.

Lemma sys_kernel v : sys_map v = 0 -> v = 0.
Proof.
move=> h0.
have hdir (d : 'I_N) : (d : nat) \in dir -> v 0 d = 0.
  by move=> hin; have /rowP/(_ d) := h0; rewrite !mxE hin.
have vE : row_of (free_part v) = v.
  by apply/rowP => d; rewrite mxE nth_free; case: ifP => // hin; rewrite hdir.
have sF : size (free_part v) = N by rewrite size_mkseq.
have [u [hu su ou eu]] := op_lin sF (@free_off v).
have u0 : u = nseq N 0.
  apply: (@eq_from_nth _ 0); rewrite ?size_nseq ?su // => d hN; rewrite nth_nseq hN.
  case hin : (d \in dir); first by rewrite ou.
  by rewrite (eu (Ordinal hN)) /= ?hin // vE h0 mxE.
have := inj sF (@free_off v); rewrite hu u0 => /(_ erefl) e0.
by rewrite -vE e0; apply/rowP => d; rewrite !mxE nth_nseq ltn_ord.
Qed.

Lemma flux_solvable r : size r = N -> off_dir r ->
  exists x, [/\ size x = N, off_dir x, op x = Ok r &
    forall x', size x' = N -> off_dir x' -> op x' = Ok r -> x' = x].
Proof.
move=> sr hr.
have hunit : lin1_mx sys_lin \in unitmx.
  rewrite -row_free_unit -kermx_eq0; apply/eqP/row_matrixP => i; rewrite row0.
  by apply: sys_kernel; rewrite -[sys_map _](mul_rV_lin1 sys_lin) -row_mul mulmx_ker row0.
pose v := row_of r *m invmx (lin1_mx sys_lin).
have hv' : sys_map v = row_of r by rewrite -[sys_map _](mul_rV_lin1 sys_lin) mulmxKV.
have hdir (d : 'I_N) : (d : nat) \in dir -> v 0 d = 0.
  by move=> hin; have /rowP/(_ d) := hv'; rewrite !mxE hin => ->; rewrite hr.
have vE : row_of (free_part v) = v.
  by apply/rowP => d; rewrite mxE nth_free; case: ifP => // hin; rewrite hdir.
have sF : size (free_part v) = N by rewrite size_mkseq.
have sol x : size x = N -> off_dir x -> (op x = Ok r <-> sys_map (row_of x) = row_of r).
  move=> sx ox; have [u [hu su ou eu]] := op_lin sx ox; rewrite hu; split=> [[<-]|hs].
    apply/rowP => d; case hin : ((d : nat) \in dir); last by rewrite -eu ?hin // mxE.
    by rewrite !mxE hin ou // ox.
  congr Ok; apply: (@eq_from_nth _ 0); rewrite ?su // => d hN.
  case hin : (d \in dir); first by rewrite ou // hr.
  by rewrite (eu (Ordinal hN)) /= ?hin // hs mxE.
exists (free_part v); split => //; first exact: free_off.
  by apply/sol => //; [exact: free_off | rewrite vE].
move=> x' sx' ox' /(sol _ sx' ox') hs.
have e0 : row_of x' - v = 0.
  apply: sys_kernel; rewrite -[sys_map _]/(sys_lin _) linearB /= hs hv' subrr //.
by move/eqP: e0; rewrite subr_eq0 => /eqP <-; rewrite free_row.
Qed.
End Solvable.

Section Definite.
Variables (F : realFieldType) (E : Type) (dim n n_nodes : nat).
Local Notation m := (2 * dim)%N.
Local Notation N := (n_nodes * n)%N.
Variables (edges : seq (seq nat * E)) (f : local_fun F E) (phi : E -> 'M[F]_(m, n) -> 'M[F]_(m, n)).
Variables (junk : seq (seq F)) (dir : seq nat).
Hypotheses (hf : computes f phi) (hv : valid_graph dim n_nodes edges).
Hypotheses (hj : size junk = m) (hd : all (fun i => i < N)%N dir).
Local Notation op x := (elliptic_flux n N dir junk edges f x).
Implicit Types (x r : seq F).
Hypothesis neg : forall e A, fdot A (phi e A) <= 0.
Hypothesis ker : forall e A, fdot A (phi e A) = 0 -> exists c, forall k j, A k j = if (j : nat) == 0%N then c else 0.
Hypothesis conn : forall v, (v < n_nodes)%N -> anchored edges (fixed_node n dir) v.

Lemma flux_definite x : size x = N -> off_dir dir x -> exists u, [/\ op x = Ok u,
  vdot N x u <= 0 & vdot N x u = 0 -> x = nseq N 0].
Proof.
move=> sx ox; have [u [hu hle h0]] := flux_nonpos hf neg hv hj sx hd ox.
exists u; split => // /h0 hall.
have zero v : anchored edges (fixed_node n dir) v -> forall j, (j < n)%N -> nth 0 x (v * n + j) = 0.
  elim=> [{}v hfix j hjn|e {}v w he hve hwe _ IH j hjn]; first by rewrite ox // hfix.
  have [se he0] : size e.1 = m /\ fdot (local_part dim n e.1 x) (phi e.2 (local_part dim n e.1 x)) = 0.
    elim: (edges) he hv hall => [//|e' l IHl] /= [<-|he] /andP[/andP[/eqP s1 _] hl] /andP[/eqP h1 h2] //.
    exact: IHl.
  have [c hc] := ker he0.
  have val a k (ha : a \in e.1) (hk : (k < n)%N) : nth 0 x (a * n + k) = if k == 0%N then c else 0.
    have hi : (index a e.1 < m)%N by rewrite -se index_mem.
    have := hc (Ordinal hi) (Ordinal hk); rewrite mxE /= nth_index //.
  have n0 : (0 < n)%N by lia.
  have c0 : c = 0 by rewrite -(IH 0%N n0) val.
  by rewrite val // c0 if_same.
apply: (@eq_from_nth _ 0); rewrite ?size_nseq // sx => d hN.
have n0 : (0 < n)%N by case: (n) hN => //; rewrite muln0.
rewrite nth_nseq hN (divn_eq d n) zero ?ltn_mod //; apply: conn.
by rewrite ltn_divLR.
Qed.
Lemma flux_unique_solution (hl : local_linear phi) r : size r = N -> off_dir dir r ->
  exists x, [/\ size x = N, off_dir dir x, op x = Ok r &
    forall x', size x' = N -> off_dir dir x' -> op x' = Ok r -> x' = x].
Proof.
apply: flux_solvable hf hl hv hj hd _ r => x sx ox hx.
have [u [hu _ h0]] := flux_definite sx ox.
apply: h0; move: hu; rewrite hx => -[<-].
by rewrite /vdot big1 // => i _; rewrite nth_nseq if_same mulr0.
Qed.
End Definite.
