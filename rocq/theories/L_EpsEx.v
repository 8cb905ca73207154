(** The contract for reading back written numbers can be met; an example file. *)
From Coq Require Import Ascii String.
From mathcomp Require Import all_ssreflect all_algebra zify.
From Verif Require Import M_Base L_Base M_DenseLA S_DenseLA L_DenseLA M_Text M_ReadDomain S_ReadDomain L_Text
  L_ReadDomain M_EpsGraph S_EpsGraph L_EpsGraph L_GeoText L_EpsFile.
Set Implicit Arguments. Unset Strict Implicit. Unset Printing Implicit Defensive.
Import Order.TTheory GRing.Theory Num.Theory.
Local Open Scope ring_scope.

(** Numbers are written as natural numbers below K. *)
Section Witness.
Variables (F : numDomainType) (K : nat).
Definition nat_of_num (x : F) : nat := nth 0%N [seq k <- iota 0 K | k%:R == x] 0.
Definition nat_show (x : F) : text := decimal (nat_of_num x).
Definition nat_rnd (x : F) : F := (nat_of_num x)%:R.
Definition nat_parse (s : text) : option (F * text) :=
  let: (d, r) := span is_digit s in if d is [::] then None else Some ((digits_val d)%:R, r).
Lemma nat_rnd_id k : (k < K)%N -> nat_rnd k%:R = k%:R.
Proof.
move=> hk; rewrite /nat_rnd /nat_of_num; congr _%:R.
rewrite (@eq_filter _ _ (pred1 k)); last by move=> i; rewrite /= eqr_nat.
by rewrite filter_pred1_uniq ?iota_uniq // mem_iota.
Qed.
Lemma nat_float_text : float_text nat_parse nat_show nat_rnd.
Proof.
split=> [x|x|x r hr].
- exact: decimal_nonempty.
- exact: decimal_solid.
rewrite /nat_parse /nat_show span_cat ?decimal_digits //.
  by case: (decimal _) (decimal_nonempty (nat_of_num x)) (decimal_val (nat_of_num x)) => [//|c w] _ ->.
case: r hr => [//|c r] /= /orP[|/eqP-> //]; first by apply: contraTN => /digit_not_space.
Qed.
End Witness.

Section Example.
Variable F : rcfType.
(** Points 0 and 1 on the line, epsilon 2. *)
Definition ex_points : seq (seq F) := [:: [:: 0]; [:: 1]].
Lemma ex_uniq : uniq ex_points.
Proof. by rewrite /= andbT inE; apply/eqP => -[/eqP]; rewrite eq_sym oner_eq0. Qed.
Lemma ex_sort : sort_points 1 ex_points = ex_points.
Proof.
apply: pairwise_sort => /=; rewrite !andbT; apply/mat_ltP => -[k [hk _]].
have -> : k = 0%N by lia.
by rewrite /= ltr10.
Qed.
Lemma ex_linked : linked 1 ex_points 2%:R 0 1.
Proof.
rewrite /linked /dist big_ord1 /= sub0r sqrrN expr1n sqrtr1.
by rewrite ltr1n.
Qed.
Lemma ex_connected : connected 1 (sort_points 1 ex_points) 2%:R.
Proof.
rewrite ex_sort; apply/connected_seen => -[|[|//]] _; first exact: reach_refl.
exact: reach_step (reach_refl _ _) ex_linked.
Qed.
Lemma ex_sort2 : sort_points 1 [:: [:: 1]; [:: 0 : F]] = ex_points.
Proof.
have ht : total (fun a b : seq F => ~~ mat_lt 1 b a).
  by move=> a b; case: (boolP (mat_lt 1 b a)) => // /mat_lt_asym ->; rewrite orbT.
have h0 : ~~ mat_lt 1 [:: 1] [:: 0 : F].
  apply/mat_ltP => -[k [hk _]]; have -> : k = 0%N by lia.
  by rewrite /= ltr10.
have h1 : mat_lt 1 [:: 0] [:: 1 : F] by apply/mat_ltP; exists 0%N; split=> //=; exact: ltr01.
by rewrite /sort_points /sort /= /ex_points h1 /=.
Qed.
Lemma whole_example (umax : nat) : (3 < umax)%N ->
  let parse := nat_parse F in let show := nat_show (F := F) 10 in let rnd := nat_rnd (F := F) 10 in
  [/\ float_text parse show rnd, forall k, (k < 10)%N -> rnd k%:R = k%:R
   & exists conn, [/\ close_pairs 1 [:: [:: 0 : F]; [:: 1]] 2%:R conn, count (joins 0 1) conn = 1%N &
       (size conn <= umax)%N ->
       exists2 D, read_domain parse show umax true 1 1 (t_ "a.pts") (Some (pts_text show 1 2%:R [:: [:: 1]; [:: 0]])) = Ok D
         & valid_domain 1 D /\ di_points D = [:: [:: 0]; [:: 1]]]].
Proof.
move=> hu parse show rnd; have hf : float_text parse show rnd by exact: nat_float_text.
have hr k : (k < 10)%N -> rnd k%:R = k%:R by exact: nat_rnd_id.
have r0 : rnd 0 = 0 by exact: (hr 0%N).
have r1 : rnd 1 = 1 by exact: (hr 1%N).
split=> //; pose pts := [:: [:: 1]; [:: 0 : F]].
have hd : all (fun p => size p == 1%N) pts by [].
have hrp : [seq [seq rnd x | x <- p] | p <- pts] = pts by rewrite /= r0 r1.
have u1 : (1 <= umax)%N by lia.
have rp : read_pts parse umax true 1 (pts_text show 1 2%:R pts) = Ok (2%:R, pts).
  by rewrite (read_pts_text _ hf) // hrp hr // ltr0n.
have up : uniq pts by rewrite /= andbT inE; apply/eqP => -[/eqP]; rewrite oner_eq0.
have hc : connected 1 (sort_points 1 pts) 2%:R by rewrite ex_sort2 -ex_sort; exact: ex_connected.
have u2 : (size pts <= umax)%N by rewrite /=; lia.
have [conn c1 c2] := @domain_pts _ _ _ _ _ _ (t_ "a.pts") _ _ _ hf u1 u1 isT rp hd isT up hc isT erefl u2.
exists conn; rewrite ex_sort2 in c1 c2; split=> //.
  have [h1 _] := c1 0%N 1%N; rewrite h1 //; [exact: ex_linked | exact: reach_refl].
move=> /c2; rewrite hrp up /= => e; eexists; first exact: e.
by have [] := read_domain_valid e; rewrite /= r0 r1.
Qed.
End Example.
