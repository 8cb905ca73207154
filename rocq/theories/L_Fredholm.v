(** A symmetric global system is solvable for right-hand sides orthogonal to its kernel. *)
From mathcomp Require Import all_ssreflect all_algebra zify.
From Verif Require Import M_Base L_Base M_Global S_Global L_Global L_Global2 L_Global3 L_Global4.
Set Implicit Arguments. Unset Strict Implicit. Unset Printing Implicit Defensive.
Import Order.TTheory GRing.Theory Num.Theory.
Local Open Scope ring_scope.

Section Fredholm.
Variables (F : realFieldType) (E : Type) (dim n n_nodes : nat).
Local Notation m := (2 * dim)%N.
Local Notation N := (n_nodes * n)%N.
Variables (edges : seq (seq nat * E)) (f : local_fun F E) (phi : E -> 'M[F]_(m, n) -> 'M[F]_(m, n)).
Variables (junk : seq (seq F)) (dir : seq nat).
Hypotheses (hf : computes f phi) (hl : local_linear phi) (hv : valid_graph dim n_nodes edges).
Hypotheses (hj : size junk = m) (hd : all (fun i => i < N)%N dir).
Local Notation op x := (elliptic_flux n N dir junk edges f x).
Local Notation off := (off_dir dir).
Local Notation sys := (@sys_map F E dim n n_nodes edges phi dir).
Local Notation free := (@free_part F n n_nodes dir).
Local Notation row := (@row_of F n n_nodes).
Local Notation sysl := (sys_lin dir hl hv).
Hypothesis sym : forall x y u v, size x = N -> size y = N -> off x -> off y -> op x = Ok u -> op y = Ok v ->
  vdot N y u = vdot N x v.
Implicit Types (v : 'rV[F]_N).
Lemma size_free v : size (free v) = N. Proof. exact: size_mkseq. Qed.
Lemma sys_dot v v' u : op (free v) = Ok u ->
  \sum_d sys v 0 d * v' 0 d = vdot N (free v') u + \sum_(d < N | (d : nat) \in dir) v 0 d * v' 0 d.
Proof.
move=> hu; have [u' [hu' su eu]] := elliptic_fluxE hf hv hj (size_free v) hd; move: hu'; rewrite hu => -[e]; subst u'.
rewrite /vdot (bigID (fun d : 'I_N => (d : nat) \in dir)) /= addrC; congr (_ + _); last first.
  by apply: eq_bigr => d hin; rewrite mxE hin.
rewrite [RHS](bigID (fun d : 'I_N => (d : nat) \in dir)) /= [X in _ = X + _]big1 ?add0r => [|d hin]; last by rewrite nth_free hin mul0r.
by apply: eq_bigr => d hin; rewrite mxE nth_free (negbTE hin) eu (negbTE hin) mulrC.
Qed.
Lemma sys_sym v v' : \sum_d sys v 0 d * v' 0 d = \sum_d sys v' 0 d * v 0 d.
Proof.
have [u [hu _ _ _]] := op_lin hf hv hj hd (size_free v) (@free_off F n n_nodes dir hd v).
have [u' [hu' _ _ _]] := op_lin hf hv hj hd (size_free v') (@free_off F n n_nodes dir hd v').
rewrite (sys_dot v' hu) (sys_dot v hu') (sym (size_free v) (size_free v') (@free_off F n n_nodes dir hd v) (@free_off F n n_nodes dir hd v') hu hu').
by congr (_ + _); apply: eq_bigr => d _; rewrite mulrC.
Qed.
Lemma delta_dot v (i : 'I_N) : \sum_d v 0 d * (delta_mx 0 i : 'rV[F]_N) 0 d = v 0 i.
Proof.
rewrite (bigD1 i) //= big1 => [|d hd']; first by rewrite mxE !eqxx mulr1 addr0.
by rewrite mxE eqxx (negbTE hd') mulr0.
Qed.
Lemma sys_trmx : (lin1_mx sysl)^T = lin1_mx sysl.
Proof.
apply/matrixP => i j; rewrite !mxE /=; have := sys_sym (delta_mx 0 j) (delta_mx 0 i).
by rewrite !delta_dot !mxE /=.
Qed.
Lemma flux_fredholm r : size r = N -> off r ->
  (forall z, size z = N -> off z -> op z = Ok (nseq N 0) -> vdot N z r = 0) ->
  exists x, [/\ size x = N, off x & op x = Ok r].
Proof.
move=> sr hr horth.
have sol v : sys v = row r -> op (free v) = Ok r.
  move=> hs; have [u [hu su eu]] := elliptic_fluxE hf hv hj (size_free v) hd; rewrite hu; congr Ok.
  apply: (@eq_from_nth _ 0); rewrite ?su ?size_free ?sr // => d hN; rewrite eu.
  case: ifP => hin; first by rewrite hr.
  by have /rowP/(_ (Ordinal hN)) := hs; rewrite !mxE /= hin.
have [D hDr] : exists D, row r = D *m lin1_mx sysl.
  apply/submxP; rewrite submxE; apply/eqP/rowP => j; rewrite [RHS]mxE.
  pose c := (col j (cokermx (lin1_mx sysl)))^T.
  have hc0 : sys c = 0.
    rewrite -[sys _](mul_rV_lin1 sysl) /= -[X in _ *m X]sys_trmx -trmx_mul.
    by rewrite colE mulmxA mulmx_coker mul0mx trmx0.
  have cd (d : 'I_N) : (d : nat) \in dir -> c 0 d = 0.
    by move=> hin; have /rowP/(_ d) := hc0; rewrite [LHS]mxE hin => ->; rewrite mxE.
  have cE (d : 'I_N) : nth 0 (free c) d = c 0 d by rewrite nth_free; case: ifP => // hin; rewrite cd.
  have := horth _ (size_free c) (@free_off F n n_nodes dir hd c).
  have [u [hu su eu]] := elliptic_fluxE hf hv hj (size_free c) hd; rewrite hu => h0.
  have {h0} <- : vdot N (free c) r = 0.
    apply: h0; congr Ok; apply: (@eq_from_nth _ 0); rewrite ?size_nseq ?su ?size_free // => d hN; rewrite eu nth_nseq hN.
    by case: ifP => // hin; have /rowP/(_ (Ordinal hN)) := hc0; rewrite !mxE /= hin.
  by rewrite /vdot mxE; apply: eq_bigr => d _; rewrite cE !mxE mulrC.
exists (free D); split; [exact: size_free | exact: free_off |].
by apply: sol; rewrite hDr -[sys _](mul_rV_lin1 sysl).
Qed.
End Fredholm.
