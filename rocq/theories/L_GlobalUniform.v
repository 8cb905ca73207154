(** The global operator of uniform diffusion. *)
From mathcomp Require Import all_ssreflect all_algebra zify.
From Verif Require Import M_Base L_Base M_Lapack S_Lapack M_Global S_Global L_Global L_Global2 L_Global3 L_Global4.
From Verif Require Import S_Hdg S_Tpp M_DiffusionUniform S_LocalSolver L_LocalBase L_LocalLink L_DiffusionUniform2.
Set Implicit Arguments. Unset Strict Implicit. Unset Printing Implicit Defensive.
Import Order.TTheory GRing.Theory Num.Theory.
Local Open Scope ring_scope.

(** A local function that computes fluxes of local HDG problems, possibly different on each hyperedge. *)
Section Local.
Variables (F : realFieldType) (E : Type) (dim nb : nat).
Local Notation m := (2 * dim)%N.
Variable f : local_fun F E.
Definition rows_of (A : 'M[F]_(m, nb)) : seq (seq F) :=
  mkseq (fun k => mkseq (fun j => if (insub k : option 'I_m, insub j : option 'I_nb) is (Some k, Some j)
                                  then A k j else 0) nb) m.
Lemma rows_ofE A (k : 'I_m) (j : 'I_nb) : nth 0 (nth [::] (rows_of A) k) j = A k j.
Proof. by rewrite (nth_mkseq [::]) // nth_mkseq // !valK. Qed.
Lemma rows_ofK A : dmx dim nb (rows_of A) = A.
Proof. by apply/matrixP => k j; rewrite mxE rows_ofE. Qed.
Lemma rows_trace A : is_trace m nb (rows_of A).
Proof. by split; [exact: size_mkseq | apply/allP => l /mapP[k _ ->]; rewrite size_mkseq]. Qed.
Lemma shaped_trace (x : seq (seq F)) : shaped dim nb x <-> is_trace m nb x.
Proof.
split=> -[sx hx]; split => //.
  by apply/(all_nthP [::]) => k; rewrite sx => hk; rewrite hx.
by move=> k hk; apply/eqP; move/(all_nthP [::]): hx; apply; rewrite sx.
Qed.
Lemma dmx_tr (x y : seq (seq F)) : dmx dim nb x = dmx dim nb y -> forall k : 'I_m, tr nb x k = tr nb y k :> 'cV[F]_nb.
Proof. by move=> h k; apply/colP => j; have /matrixP/(_ k j) := h; rewrite !mxE. Qed.
Lemma rows_of_dmx (x : seq (seq F)) : is_trace m nb x -> rows_of (dmx dim nb x) = x.
Proof.
move=> hx; apply: trace_ext (rows_trace _) hx _; apply: dmx_tr; exact: rows_ofK.
Qed.
Lemma pairing_fdot (x y : seq (seq F)) : pairing m nb x y = fdot (dmx dim nb x) (dmx dim nb y).
Proof. by apply: eq_bigr => k _; apply: eq_bigr => j _; rewrite !mxE. Qed.

Definition phi_of (e : E) (A : 'M[F]_(m, nb)) : 'M[F]_(m, nb) :=
  if f e (rows_of A) (nseq m (nseq nb 0)) is Ok y then dmx dim nb y else 0.

Lemma dmx_comb (c : F) (x y : seq (seq F)) : dmx dim nb (comb_trace c m nb x y) = c *: dmx dim nb x + dmx dim nb y.
Proof. by apply/matrixP => k j; rewrite !mxE (nth_mkseq [::]) // nth_mkseq. Qed.

Lemma zero_trace : is_trace m nb (nseq m (nseq nb (0 : F))).
Proof. by split; [exact: size_nseq | apply/allP => l /nseqP[-> _]; rewrite size_nseq]. Qed.

Lemma zero_dmx (x : seq (seq F)) : is_trace m nb x -> dmx dim nb x = 0 -> x = nseq m (nseq nb 0).
Proof.
move=> hx h0; apply: trace_ext hx zero_trace _; apply: dmx_tr.
rewrite h0; apply/matrixP => k j; rewrite !mxE nth_nseq ltn_ord nth_nseq if_same //.
Qed.
Hypothesis fok : forall e x, is_trace m nb x ->
  exists2 y, f e x (nseq m (nseq nb 0)) = Ok y & is_trace m nb y.
Lemma phi_computes : computes f phi_of.
Proof.
move=> e old new /shaped_trace ho /shaped_trace hn h0.
have [y hy sy] := fok e ho.
exists y; rewrite (zero_dmx hn h0) hy; split => //; first by apply/shaped_trace.
by rewrite /phi_of (rows_of_dmx ho) hy.
Qed.
End Local.

Section Uniform.
Variables (F : realFieldType) (E : Type) (dim p : nat) (b : nat -> {poly F}).
Variables (gesv : nat -> nat -> seq F -> seq F -> sv_result F) (tau : F).
Hypotheses (dim0 : (0 < dim)%N) (hb : orthonormal_basis (p + 1) b) (hg : gesv_correct gesv) (tau0 : 0 < tau).
Notation nb := ((p + 1) ^ (dim - 1))%N.
Local Notation m := (2 * dim)%N.
Definition uniform_fun : local_fun F E := fun _ => trace_to_flux gesv dim p (tpp_integrator b dim p) tau.
Notation phi := (@phi_of F E dim nb uniform_fun).

Lemma uniform_ok e x : is_trace m nb x ->
  exists2 y, uniform_fun e x (nseq m (nseq nb 0)) = Ok y & is_trace m nb y.
Proof.
move=> hx; have [y hy [sy _]] := uniform_flux dim0 hb hg tau0 hx (zero_trace F dim nb).
by exists y.
Qed.
Lemma uniform_phi e x y : is_trace m nb x -> uniform_fun e x (nseq m (nseq nb 0)) = Ok y ->
  phi e (dmx dim nb x) = dmx dim nb y.
Proof. by move=> hx hy; rewrite /phi_of (rows_of_dmx hx) hy. Qed.
Lemma uniform_local_linear : local_linear phi.
Proof.
move=> e a A B.
have [y [y' [hy hy' hc]]] := uniform_linear dim0 hb hg tau0 a (rows_trace A) (rows_trace B)
  (zero_trace F dim nb) (zero_trace F dim nb) (zero_trace F dim nb).
have := uniform_phi (e := e) (comb_is_trace _ _ a (rows_of A) (rows_of B)) hc.
by rewrite !dmx_comb !rows_ofK => ->; rewrite -(uniform_phi (e := e) (rows_trace A) hy)
  -(uniform_phi (e := e) (rows_trace B) hy') !rows_ofK.
Qed.
Lemma uniform_local_sym e A B : fdot A (phi e B) = fdot B (phi e A).
Proof.
have [y [y' [hy hy' hs]]] := uniform_symmetric dim0 hb hg tau0 (rows_trace A) (rows_trace B)
  (zero_trace F dim nb) (zero_trace F dim nb).
have e1 := uniform_phi (e := e) (rows_trace A) hy; have e2 := uniform_phi (e := e) (rows_trace B) hy'.
by move: hs; rewrite !pairing_fdot -e1 -e2 !rows_ofK => ->.
Qed.
Lemma uniform_local_neg e A : fdot A (phi e A) <= 0.
Proof.
have [y hy hs] := uniform_negative dim0 hb hg tau0 (rows_trace A) (zero_trace F dim nb).
by move: hs; rewrite pairing_fdot -(uniform_phi (e := e) (rows_trace A) hy) !rows_ofK.
Qed.
Lemma uniform_local_ker e A : fdot A (phi e A) = 0 ->
  exists c, forall k j, A k j = if (j : nat) == 0%N then c else 0.
Proof.
have [y hy hs] := uniform_kernel dim0 hb hg tau0 (rows_trace A) (zero_trace F dim nb).
move: hs; rewrite pairing_fdot -(uniform_phi (e := e) (rows_trace A) hy) !rows_ofK => hs /hs [c hc].
by exists c => k j; rewrite -rows_ofE hc nth_nseq ltn_ord nth_mkseq.
Qed.

Variables (n_nodes : nat) (edges : seq (seq nat * E)) (junk : seq (seq F)) (dir : seq nat).
Hypotheses (hv : valid_graph dim n_nodes edges) (hj : size junk = m) (hd : all (fun i => i < n_nodes * nb)%N dir).
Notation N := (n_nodes * nb)%N.
Notation op x := (elliptic_flux nb N dir junk edges uniform_fun x).

Lemma global_uniform_symmetric x y : size x = N -> size y = N -> off_dir dir x -> off_dir dir y ->
  exists u v, [/\ op x = Ok u, op y = Ok v & vdot N y u = vdot N x v].
Proof.
move=> sx sy ox oy.
exact: (flux_symmetric (phi_computes uniform_ok) uniform_local_sym hv hj sx sy hd ox oy).
Qed.
Lemma global_uniform_definite x : (forall v, (v < n_nodes)%N -> anchored edges (fixed_node nb dir) v) ->
  size x = N -> off_dir dir x ->
  exists u, [/\ op x = Ok u, vdot N x u <= 0 & vdot N x u = 0 -> x = nseq N 0].
Proof.
move=> hc; exact: (flux_definite (phi_computes uniform_ok) hv hj hd uniform_local_neg uniform_local_ker hc).
Qed.
Lemma global_uniform_solvable r : (forall v, (v < n_nodes)%N -> anchored edges (fixed_node nb dir) v) ->
  size r = N -> off_dir dir r ->
  exists x, [/\ size x = N, off_dir dir x, op x = Ok r &
    forall x', size x' = N -> off_dir dir x' -> op x' = Ok r -> x' = x].
Proof.
move=> hc; exact: (flux_unique_solution (phi_computes uniform_ok) hv hj hd uniform_local_neg
  uniform_local_ker hc uniform_local_linear).
Qed.
(** Constants are in the kernel. *)
Lemma global_uniform_constant c : op (flatten (nseq n_nodes (mkseq (fun j => if j == 0%N then c else 0) nb))) = Ok (nseq N 0).
Proof.
set x := flatten _.
have sx : size x = N.
  rewrite size_flatten /shape map_nseq sumn_nseq size_mkseq mulnC //.
have nthx v j : (v < n_nodes)%N -> (j < nb)%N -> nth 0 x (v * nb + j) = if j == 0%N then c else 0.
  rewrite /x => hvn hjn; elim: (n_nodes) v hvn {sx} => [//|k IH] [|v] hvn /=.
    by rewrite nth_cat size_mkseq hjn nth_mkseq.
  rewrite nth_cat size_mkseq mulSn ltnNge -addnA leq_addr /= addKn; exact: IH.
have [z [hz sz ez]] := elliptic_fluxE (phi_computes uniform_ok) hv hj sx hd.
rewrite hz; congr Ok; apply: (@eq_from_nth _ 0); rewrite sz sx ?size_nseq // => d hN.
rewrite nth_nseq hN ez; case: ifP => // _; rewrite /global_op.
elim: (edges) hv => [|e l IH] /=; first by rewrite big_nil.
case/andP=> /andP[/eqP se he] hl; rewrite big_cons IH // addr0.
have -> : local_part dim nb e.1 x = dmx dim nb (const_trace c m nb).
  apply/matrixP => k j; rewrite !mxE nthx ?nth_nseq ?ltn_ord ?nth_mkseq //.
  by apply: (allP he); rewrite mem_nth ?se.
rewrite (uniform_phi (e := e.2) (const_is_trace _ _ c) (uniform_const dim0 hb hg tau0 c (zero_trace F dim nb))).
rewrite dmx_zero; exact: scattered0.
Qed.
End Uniform.

(** Without Dirichlet rows the fluxes are orthogonal to constants. *)
Lemma global_uniform_conserved (F : realFieldType) (E : Type) (dim p : nat) (b : nat -> {poly F})
    (gesv : nat -> nat -> seq F -> seq F -> sv_result F) (tau : F) (n_nodes : nat)
    (edges : seq (seq nat * E)) (junk : seq (seq F)) (x : seq F) :
  let nb := ((p + 1) ^ (dim - 1))%N in
  (0 < dim)%N -> orthonormal_basis (p + 1) b -> gesv_correct gesv -> 0 < tau ->
  valid_graph dim n_nodes edges -> size junk = (2 * dim)%N -> size x = (n_nodes * nb)%N ->
  exists u, [/\ mat_vec nb junk edges (@uniform_fun F E dim p b gesv tau) x = Ok u, size u = size x &
    \sum_(v < n_nodes) nth 0 u (v * nb) = 0].
Proof.
move=> nb d0 hb hg t0 hv hj sx.
have off0 (z : seq F) : off_dir [::] z by [].
pose one : seq F := flatten (nseq n_nodes (mkseq (fun j => if j == 0%N then 1 else 0) nb)).
have s1 : size one = (n_nodes * nb)%N by rewrite size_flatten /shape map_nseq sumn_nseq size_mkseq mulnC.
have := @global_uniform_symmetric F E dim p b gesv tau d0 hb hg t0 n_nodes edges junk [::] hv hj isT x one sx s1 (@off0 _) (@off0 _).
rewrite (@global_uniform_constant F E dim p b gesv tau d0 hb hg t0 n_nodes edges junk [::] hv hj isT 1).
case=> u [v [hu [<-]]].
have [z [hz sz _]] := elliptic_fluxE (phi_computes (@uniform_ok F E dim p b gesv tau d0 hb hg t0)) hv hj sx (isT : all _ [::]).
have -> : vdot (n_nodes * nb) x (nseq (n_nodes * nb) 0) = 0.
  by rewrite /vdot big1 // => i _; rewrite nth_nseq if_same mulr0.
move=> hdot; exists u; split.
- by move: hu; rewrite /elliptic_flux; case: (mat_vec _ _ _ _ _).
- by move: hz; rewrite hu => -[->].
rewrite -[RHS]hdot /vdot (sum_blocks _ _ (fun c => nth 0 one c * nth 0 u c)).
have nb0 : (0 < nb)%N by exact: nb0.
have nthx k j : (k < n_nodes)%N -> (j < nb)%N -> nth 0 one (k * nb + j) = if j == 0%N then 1 else 0.
  rewrite /one => hk hjn; elim: (n_nodes) k hk {s1} => [//|l IH] [|k] hk /=.
    by rewrite nth_cat size_mkseq hjn nth_mkseq.
  rewrite nth_cat size_mkseq mulSn ltnNge -addnA leq_addr /= addKn; exact: IH.
apply: eq_bigr => k _; rewrite (sum_ord1 (i := Ordinal nb0)) => [|j hne].
  by rewrite nthx //= mul1r addn0.
by rewrite nthx // (negbTE hne) mul0r.
Qed.
