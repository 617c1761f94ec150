(** Proofs for the rotations and the sorting permutations. *)
From mathcomp Require Import all_ssreflect all_algebra zify.
From Verif Require Import A_base A_rot_model SpecLU.
Set Implicit Arguments.
Unset Strict Implicit.
Unset Printing Implicit Defensive.
Import Order.TTheory GRing.Theory Num.Theory.

Section Array.
Variable T : Type.

Lemma foldl_down (v : nat -> T) i c k :
  foldl (fun v ii => upd v ii (v ii.-1)) v (rev (iota i.+1 c)) k =
  if (i < k <= i + c)%N then v k.-1 else v k.
Proof.
elim: c v k => [|c IH] v k; first by rewrite /= ifF //; lia.
rewrite -[c.+1]addn1 iotaD rev_cat /= IH /upd.
case: (k.-1 =P (i.+1 + c)%N) => E1; case: (k =P (i.+1 + c)%N) => E2; try lia.
- by rewrite ifF ?ifF //; lia.
- by rewrite ifF ?ifT ?E2 //; lia.
- by congr (if _ then _ else _); lia.
Qed.

Lemma rot_downE (v : nat -> T) i j k : (i <= j)%N ->
  rot_down v i j k = if k == i then v j else if (i < k <= j)%N then v k.-1 else v k.
Proof.
move=> Hij; rewrite /rot_down {1}/upd; case: eqP => // N; rewrite foldl_down.
by congr (if _ then _ else _); lia.
Qed.

Lemma foldl_up (v : nat -> T) i c k :
  foldl (fun v ii => upd v ii (v ii.+1)) v (iota i c) k =
  if (i <= k < i + c)%N then v k.+1 else v k.
Proof.
elim: c k => [|c IH] k; first by rewrite /= ifF //; lia.
rewrite -[c.+1]addn1 iotaD foldl_cat /= {1}/upd !IH; case: eqP => [->|N].
  by rewrite ifF ?ifT //; lia.
by congr (if _ then _ else _); lia.
Qed.

Lemma rot_upE (v : nat -> T) i j k : (i <= j)%N ->
  rot_up v i j k = if k == j then v i else if (i <= k < j)%N then v k.+1 else v k.
Proof.
move=> Hij; rewrite /rot_up {1}/upd; case: eqP => // N; rewrite foldl_up.
by congr (if _ then _ else _); lia.
Qed.

Lemma rot_left_entriesE (v : nat -> T) i j k : (i <= j)%N ->
  rot_left_entries v i j k = if k == i then v i else if (i <= k < j)%N then v k.+1 else v k.
Proof.
move=> Hij; rewrite /rot_left_entries {1}/upd; case: eqP => // N; rewrite foldl_up.
by congr (if _ then _ else _); lia.
Qed.

Lemma rot_downP (v : nat -> T) i j : (i <= j)%N -> rotated_down i j v (rot_down v i j).
Proof.
move=> Hij; split=> [|k Hk|k Hk]; rewrite rot_downE // ?eqxx //.
  by rewrite ifF ?Hk ?subn1 //; lia.
by rewrite ifF ?ifF //; lia.
Qed.

Lemma rot_upP (v : nat -> T) i j : (i <= j)%N -> rotated_up i j v (rot_up v i j).
Proof.
move=> Hij; split=> [|k Hk|k Hk]; rewrite rot_upE // ?eqxx //.
  by rewrite ifF ?Hk ?addn1 //; lia.
by rewrite ifF ?ifF //; lia.
Qed.

Lemma rotated_id i (v : nat -> T) : rotated_down i i v v.
Proof. by split=> // k; lia. Qed.
Lemma rotated_id' i (v : nat -> T) : rotated_up i i v v.
Proof. by split=> // k; lia. Qed.

(** a loop that updates one array cell per iteration, from the old cell only *)
Lemma foldl_upd_cells (f : nat -> T -> T) (v : nat -> T) i c k :
  foldl (fun v ii => upd v ii (f ii (v ii))) v (iota i c) k =
  if (i <= k < i + c)%N then f k (v k) else v k.
Proof.
elim: c k => [|c IH] k; first by rewrite /= ifF //; lia.
rewrite -[c.+1]addn1 iotaD foldl_cat /= {1}/upd !IH; case: eqP => [->|N].
  by rewrite ifF ?ifT //; lia.
by congr (if _ then _ else _); lia.
Qed.
End Array.

(** the bijections of 0..n-1 given by the rotations *)
Lemma is_perm_down n (p : nat -> nat) i j : (i <= j < n)%N -> is_perm n p -> is_perm n (rot_down p i j).
Proof.
move=> Hij [h1 h2]; split=> [k Hk|k l Hk Hl]; rewrite !rot_downE; try lia.
  by do ?[case: ifP => ?]; apply: h1; lia.
by do ![case: ifP => ?] => /h2; lia.
Qed.

Lemma is_perm_up n (p : nat -> nat) i j : (i <= j < n)%N -> is_perm n p -> is_perm n (rot_up p i j).
Proof.
move=> Hij [h1 h2]; split=> [k Hk|k l Hk Hl]; rewrite !rot_upE; try lia.
  by do ?[case: ifP => ?]; apply: h1; lia.
by do ![case: ifP => ?] => /h2; lia.
Qed.

Section Sort.
Lemma pair_le_total : total pair_le.
Proof. move=> [a i] [b j]; rewrite /pair_le /=; lia. Qed.
Lemma pair_le_trans : transitive pair_le.
Proof. move=> [a i] [b j] [c k]; rewrite /pair_le /=; lia. Qed.

Lemma sort_permP n (vec : nat -> int) :
  let '(perm, svec) := vec_sort_permutation n vec in
  [/\ is_perm n perm, forall i, (i < n)%N -> svec i = vec (perm i) &
      forall i j, (i < j < n)%N -> (vec (perm i) < vec (perm j))%R \/
         vec (perm i) = vec (perm j) /\ (perm i < perm j)%N].
Proof.
rewrite /vec_sort_permutation; set s := [seq _ | _ <- _]; set t := sort _ s.
have sz : size t = n by rewrite size_sort size_map size_iota.
have mem i : (i < n)%N -> exists2 k, (k < n)%N & nth (0%R, 0%N) t i = (vec k, k).
  move=> Hi; have : nth (0%R, 0%N) t i \in s by rewrite -(mem_sort pair_le) mem_nth // sz.
  by case/mapP=> k; rewrite mem_iota add0n => /= Hk ->; exists k.
have U : uniq (map snd t).
  rewrite (perm_uniq (s2 := map snd s)); last by rewrite perm_map // perm_sort.
  by rewrite -map_comp (eq_map (f2 := id)) // map_id iota_uniq.
have nthm i : (i < n)%N -> nth 0%N (map snd t) i = (nth (0%R, 0%N) t i).2.
  by move=> Hi; rewrite (nth_map (0%R, 0%N)) // sz.
have inj i j : (i < n)%N -> (j < n)%N -> (nth (0%R, 0%N) t i).2 = (nth (0%R, 0%N) t j).2 -> i = j.
  move=> Hi Hj; rewrite -!nthm // => /eqP; rewrite nth_uniq ?size_map ?sz //.
  by move/eqP.
split.
- by split=> [i Hi|//]; have [k Hk ->] := mem i Hi.
- by move=> i Hi; have [k Hk ->] := mem i Hi.
move=> i j /andP[Hij Hj]; have Hi := ltn_trans Hij Hj.
have := sorted_ltn_nth pair_le_trans (0%R, 0%N) (sort_sorted pair_le_total s).
move=> /(_ i j); rewrite !inE -/t sz => /(_ Hi Hj Hij).
have := inj i j Hi Hj; have [k Hk ->] := mem i Hi; have [l Hl ->] := mem j Hj.
by rewrite /pair_le /=; lia.
Qed.
End Sort.
