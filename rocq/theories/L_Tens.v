(** Tensor products of orthonormal polynomials: the exact integrals satisfy the requirements of the
    local HDG problem, in every dimension and for every degree. *)
From mathcomp Require Import all_ssreflect all_algebra zify.
From Verif Require Import M_Base S_Index L_Index S_Tpp S_Hdg S_LocalSolver L_Poly L_Hdg.
Set Implicit Arguments. Unset Strict Implicit. Unset Printing Implicit Defensive.
Import Order.TTheory GRing.Theory Num.Theory.
Local Open Scope ring_scope.

Section Digits.
Variable n : nat.
Hypothesis n0 : (0 < n)%N.
Lemma dig_lt i d : (dig n i d < n)%N. Proof. by rewrite /dig ltn_mod. Qed.
Definition mi (i d : nat) : 'I_n := Ordinal (dig_lt i d).

Lemma dig_inj dim i j : (i < n ^ dim)%N -> (j < n ^ dim)%N ->
  (forall d, (d < dim)%N -> dig n i d = dig n j d) -> i = j.
Proof.
move=> hi hj h; rewrite -(compose_digits n0 hi) -(compose_digits n0 hj); congr compose.
apply: (@eq_from_nth _ 0%N); rewrite !size_digits // => d hd.
by rewrite !nth_digits //; exact: h.
Qed.

Definition unmi_nat dim (m : 'I_dim -> 'I_n) : nat := compose n [seq (m d : nat) | d <- enum 'I_dim].
Lemma unmi_lt dim (m : 'I_dim -> 'I_n) : (unmi_nat m < n ^ dim)%N.
Proof.
rewrite -[in (n ^ dim)%N](size_enum_ord dim) -(size_map (fun d => m d : nat)); apply: compose_lt.
by apply/allP => x /mapP[d _ ->].
Qed.
Definition unmi dim (m : 'I_dim -> 'I_n) : 'I_(n ^ dim) := Ordinal (unmi_lt m).
Lemma dig_unmi dim (m : 'I_dim -> 'I_n) (d : 'I_dim) : dig n (unmi m) d = m d.
Proof.
have ha : all (fun x => (x < n)%N) [seq (m d : nat) | d <- enum 'I_dim].
  by apply/allP => x /mapP[e _ ->].
rewrite /dig -(@nth_digits dim) //= /unmi_nat.
have hs : size [seq (m d : nat) | d <- enum 'I_dim] = dim by rewrite size_map size_enum_ord.
by rewrite -[X in digits X _ _]hs digits_compose // (nth_map d) ?size_enum_ord // nth_ord_enum.
Qed.
Lemma unmi_mi dim (i : 'I_(n ^ dim)) : unmi (fun d : 'I_dim => mi i d) = i.
Proof.
apply/val_inj; apply: (dig_inj (ltn_ord _) (ltn_ord _)) => d hd.
by rewrite (dig_unmi _ (Ordinal hd)).
Qed.

Lemma prod_bool (F : comRingType) (I : finType) (P Q : pred I) :
  \prod_(d | P d) (Q d)%:R = [forall d, P d ==> Q d]%:R :> F.
Proof.
case: forallP => [h|h].
  by rewrite big1 // => d hd; have := h d; rewrite hd /= => ->.
have [d hd] : exists d, ~~ (P d ==> Q d).
  by apply/existsP; rewrite -negb_forall; apply/negP => /forallP.
move: hd; rewrite negb_imply => /andP[hp hq].
by rewrite (bigD1 d) //= (negbTE hq) mul0r.
Qed.

(** Multi-indices that agree in all components but k; index on the face orthogonal to k. *)
Definition agree dim (k : 'I_dim) (i j : nat) : bool :=
  [forall d : 'I_dim, (d != k) ==> (dig n i d == dig n j d)].
Definition proj m (k : 'I_m.+1) (i : nat) : 'I_(n ^ m) := unmi (fun d => mi i (lift k d)).
Definition setd dim (k : 'I_dim) (i : nat) (c : 'I_n) : 'I_(n ^ dim) :=
  unmi (fun d => if d == k then c else mi i d).

Lemma dig_proj m (k : 'I_m.+1) i (d : 'I_m) : dig n (proj k i) d = dig n i (lift k d).
Proof. by rewrite dig_unmi. Qed.
Lemma dig_setd dim (k : 'I_dim) i c (d : 'I_dim) : dig n (setd k i c) d = if d == k then c : nat else dig n i d.
Proof. by rewrite dig_unmi; case: eqP. Qed.

Lemma setd_id dim (k : 'I_dim) (i : 'I_(n ^ dim)) : setd k i (mi i k) = i.
Proof.
apply/val_inj; apply: (dig_inj (ltn_ord _) (ltn_ord _)) => d hd.
by rewrite (dig_setd _ _ _ (Ordinal hd)); case: eqP => // <-.
Qed.

Lemma agree_proj m (k : 'I_m.+1) i j : agree k i j = (proj k i == proj k j).
Proof.
apply/forallP/eqP => [h|h d].
  apply/val_inj; apply: (dig_inj (ltn_ord _) (ltn_ord _)) => d hd.
  have := h (lift k (Ordinal hd)); rewrite eq_sym neq_lift /= => /eqP.
  by rewrite -!(dig_proj k _ (Ordinal hd)).
apply/implyP; case: (unliftP k d) => [e ->|-> /eqP//] _.
by rewrite -!dig_proj h.
Qed.

Lemma agree_setd dim (k : 'I_dim) i (j : 'I_(n ^ dim)) :
  agree k i j = [exists c, j == setd k i c].
Proof.
apply/forallP/existsP => [h|[c /eqP -> d]].
  exists (mi j k); apply/eqP/val_inj; apply: (dig_inj (ltn_ord _) (ltn_ord _)) => d hd.
  rewrite (dig_setd _ _ _ (Ordinal hd)); case: eqP => [<-//|/eqP hne].
  by have := h (Ordinal hd); rewrite hne /= => /eqP.
by apply/implyP => hd; rewrite dig_setd (negbTE hd).
Qed.

(** Sums along a line of multi-indices. *)
Lemma sum_line (V : zmodType) dim (k : 'I_dim) i (G : 'I_(n ^ dim) -> V) :
  \sum_(j : 'I_(n ^ dim) | agree k i j) G j = \sum_c G (setd k i c).
Proof.
rewrite (reindex_onto (setd k i) (fun j : 'I_(n ^ dim) => mi j k)).
  apply: eq_bigl => c; rewrite agree_setd (_ : [exists e, _]) /=; last by apply/existsP; exists c.
  by apply/eqP/val_inj; rewrite /= -/(setd k i c) (dig_setd k i c k) eqxx.
move=> j; rewrite agree_setd => /existsP[c /eqP ->]; congr (setd k i _).
by apply/val_inj; rewrite /= dig_setd eqxx.
Qed.
End Digits.

(** Unit cube data of the local problem, from the exact integrals. *)
Definition tens_hdg (F : realFieldType) (n : nat) (b : nat -> {poly F}) (m : nat) :
    hdg F (n ^ m.+1) (n ^ m) m.+1 (2 * m.+1) :=
  hdg_of _ _ _ _ (vol_phiphi n b m.+1) (vol_Dphiphi n b m.+1) (bdr_phipsi n b m.+1)
    (bdr_phiphi n b m.+1) (unit_normal F) (fun=> 1).

Section Tens.
Variables (F : realFieldType) (n : nat) (b : nat -> {poly F}) (m : nat).
Hypotheses (n0 : (0 < n)%N) (hb : orthonormal_basis n b).
Notation dim := m.+1.
Notation N := (n ^ dim)%N.
Implicit Types (i j : 'I_N) (k d : 'I_dim).

Lemma phi1E i j d : phi1 b (dig n i d) (dig n j d) = (dig n i d == dig n j d)%:R.
Proof. by case: hb => _ _ ho; rewrite /phi1 ho ?dig_lt. Qed.

Lemma vol_phiphiE i j : vol_phiphi n b dim i j = (i == j)%:R.
Proof.
rewrite /vol_phiphi (eq_bigr (fun d : 'I_dim => (dig n i d == dig n j d)%:R)) => [|d _]; last exact: phi1E.
rewrite prod_bool; congr (_ %:R); congr nat_of_bool; apply/forallP/eqP => [h|-> d]; last by rewrite eqxx.
apply/val_inj; apply: (dig_inj n0 (ltn_ord i) (ltn_ord j)) => d hd.
by apply/eqP; exact: (h (Ordinal hd)).
Qed.

Lemma vol_DphiphiE i j k : vol_Dphiphi n b dim i j k = dphi1 b (dig n i k) (dig n j k) * (agree n k i j)%:R.
Proof.
rewrite /vol_Dphiphi (bigD1 k) //= eqxx; congr (_ * _).
rewrite (eq_bigr (fun d : 'I_dim => (dig n i d == dig n j d)%:R)) => [|d hd]; first by rewrite prod_bool.
by rewrite val_eqE (negbTE hd) phi1E.
Qed.

Definition face_dir (f : 'I_(2 * dim)) : 'I_dim := inord (f %/ 2).
Lemma face_dirE f : face_dir f = (f %/ 2)%N :> nat.
Proof. by rewrite /face_dir inordK //; have := ltn_ord f; lia. Qed.
Definition face_val (f i : nat) k : F := (b (dig n i k)).[(f %% 2)%N%:R].

Lemma bdr_phiphiE i j (f : 'I_(2 * dim)) : bdr_phiphi n b dim i j f =
  face_val f i (face_dir f) * face_val f j (face_dir f) * (agree n (face_dir f) i j)%:R.
Proof.
rewrite /bdr_phiphi (bigD1 (face_dir f)) //= face_dirE eqxx; congr (_ * _).
  by rewrite /face_val face_dirE.
rewrite (eq_bigr (fun d : 'I_dim => (dig n i d == dig n j d)%:R)) => [|d hd]; first by rewrite prod_bool.
by rewrite -(face_dirE f) val_eqE (negbTE hd) phi1E.
Qed.

Lemma bdr_phipsiE i (j : 'I_(n ^ m)) (f : 'I_(2 * dim)) : bdr_phipsi n b dim i j f =
  face_val f i (face_dir f) * (j == proj n0 (face_dir f) i)%:R.
Proof.
rewrite /bdr_phipsi (bigD1_ord (face_dir f)) //= face_dirE eqxx; congr (_ * _).
  by rewrite /face_val face_dirE.
rewrite (eq_bigr (fun d : 'I_m => (dig n (proj n0 (face_dir f) i) d == dig n j d)%:R)) => [|d _].
  rewrite prod_bool; congr (_ %:R); congr nat_of_bool; apply/forallP/eqP => [h|-> d]; last by rewrite eqxx.
  apply/val_inj; apply/esym; apply: (dig_inj n0 (ltn_ord _) (ltn_ord _)) => d hd.
  by apply/eqP; exact: (h (Ordinal hd)).
rewrite -face_dirE dig_proj /=.
have -> : (bump (face_dir f) d == face_dir f) = false by rewrite /bump; lia.
have -> : (bump (face_dir f) d - (face_dir f < bump (face_dir f) d))%N = d.
  by rewrite /bump; lia.
by case: hb => _ _ ho; rewrite /phi1 ho ?dig_lt.
Qed.

Notation T := (tens_hdg n b m).
Lemma agreeC k i j : agree n k i j = agree n k j i.
Proof. by apply: eq_forallb => d; rewrite [dig n i d == _]eq_sym. Qed.

(** The two faces orthogonal to k. *)
Lemma face_lt (k : 'I_dim) (s : bool) : (2 * k + s < 2 * dim)%N.
Proof. by have := ltn_ord k; case: s => /=; lia. Qed.
Definition face (k : 'I_dim) (s : bool) : 'I_(2 * dim) := Ordinal (face_lt k s).
Lemma face_dir_face k s : face_dir (face k s) = k.
Proof. by apply/ord_inj; rewrite face_dirE /=; case: s => /=; lia. Qed.
Lemma odd_face k s : odd (face k s) = s.
Proof. by rewrite /= oddD oddM /=; case: s. Qed.
Lemma faceP (f : 'I_(2 * dim)) : exists k s, f = face k s.
Proof.
exists (face_dir f), (odd f); apply/val_inj; rewrite /= face_dirE.
by have := divn_eq f 2; rewrite modn2; lia.
Qed.
Lemma face_eq k s k' s' : (face k s == face k' s') = (k == k') && (s == s').
Proof.
apply/eqP/andP => [h|[/eqP -> /eqP ->] //].
by rewrite -(face_dir_face k s) h face_dir_face -(odd_face k s) h odd_face !eqxx.
Qed.

Lemma sum_faces (V : zmodType) (G : 'I_(2 * dim) -> V) :
  \sum_f G f = \sum_k (G (face k true) + G (face k false)).
Proof.
transitivity (\sum_k \sum_(f | face_dir f == k) G f).
  by rewrite (partition_big face_dir xpredT).
apply: eq_bigr => k _; rewrite (bigD1 (face k true)) ?face_dir_face //=; congr (_ + _).
rewrite (bigD1 (face k false)) /=; last by rewrite face_dir_face eqxx face_eq andbF.
rewrite big1 ?addr0 // => f; have [k' [s ->]] := faceP f.
by rewrite face_dir_face !face_eq; case: eqP => //= ->; case: s.
Qed.

Lemma normal_face k s d : unit_normal F (face k s) d = if d == k then (if s then 1 else -1) else 0.
Proof.
by rewrite /unit_normal odd_face -(face_dirE (face k s)) face_dir_face.
Qed.

Lemma sum_normals (V : lmodType F) (G : 'I_(2 * dim) -> V) k :
  \sum_(f : 'I_(2 * dim)) unit_normal F f k *: G f = G (face k true) - G (face k false).
Proof.
rewrite sum_faces (bigD1 k) // big1 ?addr0 => [|d hd]; rewrite !normal_face.
  by rewrite eqxx scale1r scaleN1r; exact: addr0.
by rewrite eq_sym (negbTE hd) !scale0r addr0.
Qed.

Lemma dphi1_parts i j k : dphi1 b (dig n i k) (dig n j k) + dphi1 b (dig n j k) (dig n i k) =
  face_val 1 i k * face_val 1 j k - face_val 0 i k * face_val 0 j k.
Proof. by rewrite /dphi1 [_ * b (dig n i k)]mulrC integ_parts. Qed.

Lemma face_valE k s i d : face_val (face k s) i d = face_val s i d.
Proof. by rewrite /face_val modn2 odd_face; case: s. Qed.

(** The restriction of a function to the line through i in direction k. *)
Definition line k i (u : 'cV[F]_N) (c : nat) : F :=
  if insub c is Some c' then u (setd n0 k i c') 0 else 0.
Lemma lineE k i u (c : 'I_n) : line k i u c = u (setd n0 k i c) 0.
Proof. by rewrite /line valK. Qed.
Lemma line_id k i u : line k i u (dig n i k) = u i 0.
Proof. by rewrite (lineE _ _ _ (mi n0 i k)) setd_id. Qed.

Lemma integ_line (p : {poly F}) k i u :
  \sum_(c < n) integ (p * b c) * line k i u c = integ (p * lin n b (line k i u)).
Proof.
rewrite /lin mulr_sumr raddf_sum; apply: eq_bigr => c _ /=.
by rewrite -scalerAr linearZ /= mulrC.
Qed.

Lemma setd_agree k i c j : agree n k (setd n0 k i c) j = agree n k i j.
Proof. by apply: eq_forallb => d; rewrite dig_setd; case: eqP. Qed.

Lemma D_line k i (c : 'I_n) u :
  (hD T k *m u) (setd n0 k i c) 0 = integ ((b c)^`() * lin n b (line k i u)).
Proof.
rewrite mxE -integ_line.
transitivity (\sum_(j : 'I_N | agree n k i j) dphi1 b c (dig n j k) * u j 0).
  rewrite [RHS]big_mkcond; apply: eq_bigr => j _; rewrite mxE vol_DphiphiE setd_agree dig_setd eqxx.
  by case: (agree _ _ _ _); rewrite ?mulr1 ?mulr0 ?mul0r.
rewrite (sum_line n0); apply: eq_bigr => e _.
by rewrite dig_setd eqxx lineE /dphi1.
Qed.
Lemma Dt_line k i (c : 'I_n) u :
  ((hD T k)^T *m u) (setd n0 k i c) 0 = integ ((lin n b (line k i u))^`() * b c).
Proof.
rewrite mxE /lin raddf_sum mulr_suml raddf_sum /=.
transitivity (\sum_(j : 'I_N | agree n k i j) dphi1 b (dig n j k) c * u j 0).
  rewrite [RHS]big_mkcond; apply: eq_bigr => j _; rewrite !mxE vol_DphiphiE agreeC setd_agree dig_setd eqxx.
  by case: (agree _ _ _ _); rewrite ?mulr1 ?mulr0 ?mul0r.
rewrite (sum_line n0); apply: eq_bigr => e _.
by rewrite dig_setd eqxx lineE /dphi1 derivZ -scalerAl linearZ /= mulrC.
Qed.
Lemma Et_line k s i u :
  ((hE T (face k s))^T *m u) (proj n0 k i) 0 = (lin n b (line k i u)).[s%:R].
Proof.
rewrite mxE /lin horner_sum.
transitivity (\sum_(j : 'I_N | agree n k i j) face_val s j k * u j 0).
  rewrite [RHS]big_mkcond; apply: eq_bigr => j _; rewrite !mxE bdr_phipsiE face_dir_face face_valE.
  rewrite (agree_proj n0); by case: eqP; rewrite ?mulr1 ?mulr0 ?mul0r.
rewrite (sum_line n0); apply: eq_bigr => e _.
by rewrite /face_val dig_setd eqxx lineE hornerZ mulrC; case: s.
Qed.

Lemma tens_mass : hM T = 1%:M.
Proof. by apply/matrixP => i j; rewrite !mxE vol_phiphiE. Qed.

Lemma tens_unique (u : 'cV[F]_N) k : hD T k *m u = 0 -> (forall f, (hE T f)^T *m u = 0) -> u = 0.
Proof.
move=> hD hE; apply/matrixP => i z; rewrite (ord1 z) mxE -(line_id k i u).
pose v := lin n b (line k i u).
have v0 (s : bool) : v.[s%:R] = 0 by rewrite -Et_line hE mxE.
have hc : v = (line k i u 0)%:P.
  apply: (lin_deriv0 hb n0) => c hc.
  have := integ_parts v (b c); rewrite (v0 true) (v0 false) !mul0r subrr.
  by rewrite [v * _]mulrC -(D_line k i (Ordinal hc)) hD mxE addr0.
apply: (lin_inj0 hb); last exact: dig_lt.
by rewrite -/v hc -(hornerC (line k i u 0) 0) -hc (v0 false).
Qed.

Lemma tens_ok : hdg_ok T.
Proof.
split.
- by rewrite tens_mass trmx1.
- by move=> q q0; rewrite tens_mass mul1mx lt_neqAle dotv_ge0 andbT eq_sym dotv_eq0.
- move=> k; rewrite (sum_normals (hB T)); apply/matrixP => i j.
  rewrite !mxE !vol_DphiphiE !bdr_phiphiE !face_dir_face !face_valE agreeC -mulrBl -dphi1_parts.
  by rewrite [agree n k j i]agreeC mulrDl.
- move=> f; split; first exact: ltr01.
  rewrite scale1r; apply/matrixP => i j; rewrite !mxE bdr_phiphiE.
  rewrite (bigD1 (proj n0 (face_dir f) i)) //= big1 ?addr0 => [|a ha].
    by rewrite !mxE !bdr_phipsiE eqxx mulr1 mulrA agree_proj.
  by rewrite !mxE !bdr_phipsiE (negbTE ha) mulr0 mul0r.
by move=> u hD hE; apply: (tens_unique (hD ord0) hE).
Qed.

(** The constant function 1. *)
Lemma pow_gt0 (w : nat) : (0 < n ^ w)%N. Proof. by rewrite expn_gt0 n0. Qed.
Definition one_vec (w : nat) : 'cV[F]_(n ^ w) := \col_i (i == 0%N :> nat)%:R.
Lemma dig0 (w : nat) : dig n 0 w = 0%N. Proof. by rewrite /dig div0n mod0n. Qed.

Lemma one_sum (w : nat) (G : 'I_(n ^ w) -> F) : \sum_j G j * one_vec w j 0 = G (Ordinal (pow_gt0 w)).
Proof.
rewrite (bigD1 (Ordinal (pow_gt0 w))) //= mxE eqxx mulr1 big1 ?addr0 // => j hj.
by rewrite mxE (_ : (j == 0%N :> nat) = false) ?mulr0 //; apply/negbTE; move: hj; rewrite -val_eqE.
Qed.

Lemma tens_const : hdg_const T (one_vec dim) (one_vec m).
Proof.
have b0 : b 0%N = 1 by case: hb.
split=> [k|f]; apply/matrixP => i z; rewrite (ord1 z) !mxE.
  rewrite (eq_bigr (fun j => vol_Dphiphi n b dim j i k * one_vec dim j 0)) => [|j _]; last by rewrite !mxE.
  rewrite one_sum (vol_DphiphiE (Ordinal (pow_gt0 dim))) /= dig0 /dphi1 b0.
  by rewrite -polyC1 derivC mul0r raddf0 mul0r.
rewrite (eq_bigr (fun j => bdr_phipsi n b dim j i f * one_vec dim j 0)) => [|j _]; last by rewrite !mxE.
rewrite one_sum (bdr_phipsiE (Ordinal (pow_gt0 dim))) /face_val /= dig0 b0 hornerC mul1r mul1r.
congr (_ %:R); congr nat_of_bool; apply/eqP/eqP => [->|hi].
  apply: (dig_inj n0 (ltn_ord _) (pow_gt0 m)) => d hd.
  by rewrite (dig_proj n0 _ _ (Ordinal hd)) !dig0.
apply/val_inj; apply: (dig_inj n0 (ltn_ord _) (ltn_ord _)) => d hd.
by rewrite (dig_proj n0 _ _ (Ordinal hd)) hi !dig0.
Qed.

Lemma tens_grad : hdg_grad T (one_vec dim).
Proof.
move=> u hD; exists (u (Ordinal (pow_gt0 dim)) 0); apply/matrixP => i z; rewrite (ord1 z) !mxE.
case: eqP => [hi|hi].
  by rewrite mulr1; congr (u _ 0); apply/val_inj.
have [d hd] : exists d : 'I_dim, dig n i d != 0%N.
  apply/existsP; rewrite -negb_forall; apply/negP => /forallP h; apply: hi.
  apply: (dig_inj n0 (ltn_ord _) (pow_gt0 dim)) => d hd.
  by rewrite dig0; apply/eqP; exact: (h (Ordinal hd)).
rewrite mulr0 -(line_id d i u) -(integ_lin hb) ?dig_lt // (lin_deriv0 hb n0) => [|c hc].
  case: hb => b0 _ ho; rewrite -alg_polyC -scalerAl linearZ /= -b0 ho ?dig_lt //.
  by rewrite eq_sym (negbTE hd) mulr0.
by rewrite -(Dt_line d i (Ordinal hc)) hD mxE.
Qed.
End Tens.
