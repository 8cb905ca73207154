(** The arrays of the geometry section of a plot file. *)
From Coq Require Import Ascii String.
From mathcomp Require Import all_ssreflect all_algebra zify.
From Verif Require Import M_Base L_Base M_Index S_Index L_Index M_Text S_ReadDomain L_Text M_Plot S_Plot L_PlotText.
Set Implicit Arguments. Unset Strict Implicit. Unset Printing Implicit Defensive.

Lemma words_endl s : words (s ++ endl) = words s.
Proof. by rewrite words_cat ?orbT // cats0. Qed.
Lemma words_pre s w : all is_space s -> words (s ++ w) = words w.
Proof.
move=> h; rewrite words_cat; first by rewrite (words_spaces h).
apply/orP; left.
case: s h => [//|c s]; rewrite /ends_space => /allP h; apply: h.
exact: (mem_last c s).
Qed.
Lemma words_sp w s : w != [::] -> solid w -> words (w ++ t_ " " ++ s) = w :: words s.
Proof. by move=> h1 h2; rewrite words_cat ?orbT // words_solid // words_pre. Qed.
Lemma words_dec n s : words (decimal n ++ t_ " " ++ s) = decimal n :: words s.
Proof. exact: words_sp (decimal_nonempty n) (decimal_solid n). Qed.
Lemma words_dec_endl n : words (decimal n ++ endl) = [:: decimal n].
Proof. by rewrite words_endl words_decimal. Qed.
Lemma ends_endl s : ends_space (s ++ endl). Proof. exact: ends_space_cat. Qed.
Lemma words_pre_dec s n : all is_space s -> words (s ++ decimal n) = [:: decimal n].
Proof. by move=> h; rewrite words_pre // words_decimal. Qed.

Lemma flatten_mul (A : Type) (m k : nat) (f : nat -> seq A) :
  flatten (mkseq (fun i => flatten (mkseq (fun j => f (i * m + j)) m)) k) = flatten (mkseq f (k * m)).
Proof.
elim: k => [//|k IH]; rewrite mkseqS flatten_rcons IH.
have -> : k.+1 * m = k * m + m by rewrite mulSn addnC.
rewrite /mkseq iotaD map_cat flatten_cat add0n; congr cat; congr flatten.
rewrite -[in RHS](addn0 (k * m)) iotaDl -map_comp.
by [].
Qed.
Lemma eq_flatten (A : Type) (n : nat) (f g : nat -> seq A) : (forall i, i < n -> f i = g i) ->
  flatten (mkseq f n) = flatten (mkseq g n).
Proof.
move=> h; congr flatten; apply/eq_in_map => i; rewrite mem_iota => /andP[_ hi].
exact: h.
Qed.

(** ** Corners *)
Lemma corner0 n c v : grid_corner n 0 c v = 0. Proof. by []. Qed.
Lemma digit_small b x : x < b -> digit_of b x 0 = x.
Proof. by move=> h; rewrite /digit_of expn0 divn1 modn_small. Qed.
Lemma digit_low b x y : y < b -> digit_of b (x * b + y) 0 = y.
Proof. by move=> h; rewrite /digit_of expn0 divn1 modnMDl modn_small. Qed.
Lemma digit_high b x y k : y < b -> digit_of b (x * b + y) k.+1 = digit_of b x k.
Proof.
move=> h; rewrite /digit_of expnS divnMA divnMDl; last by lia.
by rewrite (divn_small h) addn0.
Qed.
Lemma corner1 n i v : i < n.-1 -> grid_corner n 1 i v = i + digit_of 2 v 0.
Proof. by move=> h; rewrite /grid_corner /= (digit_small h) muln0 addn0. Qed.
Lemma corner2 n i j v : i < n.-1 -> j < n.-1 ->
  grid_corner n 2 (i * n.-1 + j) v = (i + digit_of 2 v 1) * n + j + digit_of 2 v 0.
Proof.
move=> hi hj; rewrite /grid_corner /= digit_low // digit_high // (digit_small hi).
by rewrite muln0 addn0 (mulnC n); lia.
Qed.
Lemma corner3 n i j k v : i < n.-1 -> j < n.-1 -> k < n.-1 ->
  grid_corner n 3 ((i * n.-1 + j) * n.-1 + k) v =
  ((i + digit_of 2 v 2) * n + (j + digit_of 2 v 1)) * n + k + digit_of 2 v 0.
Proof.
move=> hi hj hk; rewrite /grid_corner /= digit_low // !digit_high // digit_low // (digit_small hi).
rewrite muln0 addn0 (mulnC n); nia.
Qed.
Lemma lt_pow2 n i j : i < n -> j < n -> i * n + j < n * n.
Proof. by move=> hi hj; nia. Qed.
Lemma lt_pow3 n i j k : i < n -> j < n -> k < n -> (i * n + j) * n + k < n * n * n.
Proof. by move=> hi hj hk; have := lt_pow2 hi hj; nia. Qed.

Lemma bits : (digit_of 2 0 0 = 0) * (digit_of 2 0 1 = 0) * (digit_of 2 0 2 = 0) * (digit_of 2 1 0 = 1) * (digit_of 2 1 1 = 0) * (digit_of 2 1 2 = 0) *
  (digit_of 2 2 0 = 0) * (digit_of 2 2 1 = 1) * (digit_of 2 2 2 = 0) * (digit_of 2 3 0 = 1) * (digit_of 2 3 1 = 1) * (digit_of 2 3 2 = 0) *
  (digit_of 2 4 0 = 0) * (digit_of 2 4 1 = 0) * (digit_of 2 4 2 = 1) * (digit_of 2 5 0 = 1) * (digit_of 2 5 1 = 0) * (digit_of 2 5 2 = 1) *
  (digit_of 2 6 0 = 0) * (digit_of 2 6 1 = 1) * (digit_of 2 6 2 = 1) * (digit_of 2 7 0 = 1) * (digit_of 2 7 1 = 1) * (digit_of 2 7 2 = 1).
Proof. by []. Qed.
Definition cell_words (c : cell) : seq text := [seq decimal v | v <- c.2].

Lemma words_sub_cubes W d n offset : d <= 3 -> (d = 0 -> n = 2) -> offset + n ^ d <= W ->
  words (sub_cube_connectivity W d n offset) =
  flatten (mkseq (fun c => cell_words (grid_cell n d offset c)) (n.-1 ^ d)).
Proof.
case: d => [|[|[|[|//]]]] _ hd hW; rewrite /sub_cube_connectivity.
- rewrite hd // /cell_words /grid_cell /= out_loopE /= cats0 words_dec_endl corner0 addn0.
  by rewrite modn_small //; lia.
- rewrite words_out_loop_end => [|i _]; last by cbv beta; rewrite !catA; exact: ends_endl.
  rewrite expn1; apply: eq_flatten => i hi; rewrite words_dec words_dec_endl.
  rewrite /cell_words /= !corner1 // !modn_small; try lia.
  by rewrite addn0 -addnA.
- rewrite words_out_loop_end => [|i _]; last first.
    by apply: out_loop_ends => j _; cbv beta; rewrite !catA; exact: ends_endl.
  rewrite expnS expn1 -(flatten_mul _ _ (fun c => cell_words (grid_cell n 2 offset c))).
  apply: eq_flatten => i hi; rewrite words_out_loop_end => [|j _]; last by cbv beta; rewrite !catA; exact: ends_endl.
  apply: eq_flatten => j hj; rewrite !words_dec words_dec_endl.
  have hn := lt_pow2 (_ : i.+1 < n) (_ : j.+1 < n).
  have {}hn : i.+1 * n + j.+1 < n * n by apply: hn; lia.
  have {}hW : offset + n * n <= W by move: hW; rewrite expnS expn1.
  rewrite mulSn in hn.
  rewrite /cell_words /= !corner2 // !modn_small; try lia.
  rewrite !bits.
  by do 4 (congr cons; first by congr decimal; lia).
rewrite words_out_loop_end => [|i _]; last first.
  by apply: out_loop_ends => j _; apply: out_loop_ends => k _; cbv beta; rewrite !catA; exact: ends_endl.
have -> : n.-1 ^ 3 = n.-1 * n.-1 * n.-1 by rewrite !expnS expn0 muln1 mulnA.
rewrite -(flatten_mul _ _ (fun c => cell_words (grid_cell n 3 offset c))).
rewrite -(flatten_mul n.-1 n.-1).
apply: eq_flatten => i hi; rewrite words_out_loop_end => [|j _]; last first.
  by apply: out_loop_ends => k _; cbv beta; rewrite !catA; exact: ends_endl.
apply: eq_flatten => j hj; rewrite words_out_loop_end => [|k _]; last by cbv beta; rewrite !catA; exact: ends_endl.
apply: eq_flatten => k hk; rewrite !words_dec words_dec_endl.
have {}hW : offset + n * n * n <= W by move: hW; rewrite !expnS expn0 muln1 mulnA.
have hn : (i.+1 * n + j.+1) * n + k.+1 < n * n * n by apply: lt_pow3; lia.
have {}hn : (i * n + j) * n + k + n * n + n + 1 < n * n * n.
  by apply: leq_ltn_trans hn; rewrite !mulSn !mulnDl !mulSn; lia.
rewrite /cell_words /= !corner3 // !modn_small; try lia.
rewrite !bits.
by do 8 (congr cons; first by congr decimal; nia).
Qed.
