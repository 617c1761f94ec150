(** Correctness of nmod_poly_mat_kernel_via_approx. *)
From mathcomp Require Import all_ssreflect all_algebra fraction zify.
From Verif Require Import A_base SpecA A_mbasis_abs A_pmbasis_model A_pmbasis_proof A_frac_proof A_kernel_model A_kernel_abs.
Set Implicit Arguments.
Unset Strict Implicit.
Unset Printing Implicit Defensive.
Import Order.TTheory GRing.Theory Num.Theory.
Local Open Scope ring_scope.

Lemma foldl_iota_rcons (T : Type) (f : T -> nat -> T) x a n :
  foldl f x (iota a n.+1) = f (foldl f x (iota a n)) (a + n)%N.
Proof. by rewrite -addn1 iotaD foldl_cat /= . Qed.

Section K.
Variable F : fieldType.
Implicit Types (A : fmat {poly F}).

Lemma shift_ampP m (s : nat -> int) (i j : 'I_m) : s i - s j <= shift_amp m s.
Proof.
pose st k := foldl (fun (st : int * int) i =>
      let: (mn, amp) := st in
      let s := s i in
      if s < mn then (s, amp) else if amp < s then (mn, s) else (mn, amp))
    (s 0%N, s 0%N) (iota 0 k).
suff H : forall k, forall a, (a < k)%N -> (st k).1 <= s a <= (st k).2.
  have /andP[_ h1] := H m i (ltn_ord i); have /andP[h2 _] := H m j (ltn_ord j).
  rewrite /shift_amp -/(st m); lia.
elim=> [//|k IH].
rewrite {1}/st {1}/st foldl_iota_rcons add0n -/(st k).
case: k IH => [_|k IH].
  by move=> /= a; rewrite ltnS leqn0 => /eqP ->; rewrite ltxx /= lexx.
case: (st k.+1) IH => mn amp /= IH.
have h0 := IH 0%N isT.
move=> a; rewrite ltnS leq_eqVlt => /orP[/eqP ->|Ha].
  by case: ltP => h1 /=; [|case: ltP => h2 /=]; lia.
have := IH _ Ha.
by case: ltP => h1 /=; [|case: ltP => h2 /=]; lia.
Qed.

(** the loop gathering the kernel rows *)
Definition selrows (p : pred nat) m := [seq i <- iota 0 m | p i].

Lemma selrowsS p m : selrows p m.+1 = if p m then rcons (selrows p m) m else selrows p m.
Proof.
rewrite /selrows -addn1 iotaD filter_cat /= add0n.
by case: ifP; rewrite ?cats1 ?cats0.
Qed.

Lemma via_loop order d amp rdeg app piv0 (s : nat -> int) m :
  let p i := (rdeg i - s i + amp < order%:Z - d%:Z) in
  let S := selrows p m in
  let r := foldl (via_step order d amp rdeg) (@KerRes F 0 app piv0 s) (iota 0 m) in
  [/\ kr_nullity r = size S,
      forall a, (a < size S)%N -> [/\ kr_ker r a = app (nth 0%N S a),
         kr_pivind r a = nth 0%N S a & kr_shift r a = rdeg (nth 0%N S a)],
      (size S <= m)%N &
      forall i, (m <= i)%N -> kr_ker r i = app i /\ kr_shift r i = s i].
Proof.
move=> p; elim: m => [|m IH]; first by split.
move=> S r; rewrite /S /r foldl_iota_rcons add0n selrowsS.
move: IH; set S1 := selrows p m; set r1 := foldl _ _ _ => -[E1 E2 E3 E4].
have [E4k E4s] := E4 m (leqnn m).
rewrite /via_step E4s -/(p m); case: ifP => Pm; last first.
  by split=> //; [lia|move=> i Hi; apply: E4; lia].
rewrite /= size_rcons E1; split=> //.
  move=> a; rewrite ltnS leq_eqVlt => /orP[/eqP ->|Ha].
    rewrite nth_rcons ltnn eqxx /swap_rows /upd !eqxx; split=> //.
    by case: ifP => [/eqP ->|_] //.
  have [H1 H2 H3] := E2 _ Ha.
  rewrite nth_rcons Ha /swap_rows /upd !(ltn_eqF Ha) ifF //; apply/eqP; lia.
move=> i Hi; rewrite /swap_rows /upd !ifF; [|apply/eqP; lia..].
by apply: E4; lia.
Qed.
End K.

Section K2.
Variable F : fieldType.
Implicit Types (A : fmat {poly F}).
Local Notation mf := (map_mx (@FracField.tofrac [idomainType of {poly F}])).

(** pivots and degrees, by coefficients *)
Definition mkb m n k (s : 'I_m -> int) (A : 'M[{poly F}]_(m, n)) (K : 'M[{poly F}]_(k, m))
  (piv : nat -> nat) (t : nat -> int) : Prop :=
  [/\ kernel_basis A K,
      forall i : 'I_k, exists2 j : 'I_m, piv i = j & pvt s (row i K) j (t i) &
      forall i i' : 'I_k, (i < i')%N -> (piv i < piv i')%N].

Lemma mkbP m n k (s : 'I_m -> int) (A : 'M[{poly F}]_(m, n)) (K : 'M[{poly F}]_(k, m)) piv t :
  @mkb m n k s A K piv t <-> minimal_kernel_basis s A K piv t.
Proof.
split=> [[H1 H2 H3]|[H1 H2 H3 H4]]; split=> //.
- by move=> i; have [j E V] := H2 i; exists j => //; apply/is_pivot_pvt; exists (t i).
- by move=> i; have [j E V] := H2 i; exact: pvt_rdeg V.
move=> i; have [j E /is_pivot_pvt[e V]] := H2 i; exists j => //.
suff -> : t i = e by [].
have [B1 [j1 N1 E1]] := H4 i; have [B2 [j2 N2 E2]] := pvt_rdeg V.
by apply/eqP; rewrite eq_le -{1}E1 B2 //= -E2 B1.
Qed.

Lemma max_lengthP m n A (i : 'I_m) (j : 'I_n) : (size (A i j) <= mat_max_length m n A)%N.
Proof. by apply: leq_trans (leq_bigmax i); exact: (leq_bigmax j). Qed.

Lemma max_length0 m n A : mat_max_length m n A = 0%N -> mx_of m n A = 0.
Proof.
move=> E; apply/matrixP=> i j; rewrite !mxE; apply/eqP; rewrite -size_poly_eq0.
by have := max_lengthP A i j; rewrite E leqn0.
Qed.

Lemma max_length0P m n A : mx_of m n A = 0 -> mat_max_length m n A = 0%N.
Proof.
move=> E; apply/eqP; rewrite -leqn0; apply/bigmax_leqP=> i _; apply/bigmax_leqP=> j _.
by have := congr1 (fun M : 'M[{poly F}]_(m, n) => M i j) E; rewrite !mxE => ->; rewrite size_poly0.
Qed.

Lemma mkb_identity m n s (A : 'M[{poly F}]_(m, n)) (t : nat -> int) : A = 0 -> (forall i : 'I_m, t i = s i) ->
  mkb s A (mx_of m m (@fone _)) id t.
Proof.
move=> -> Ht; rewrite mx_of_one; split=> //.
  split=> [i|]; first by rewrite mulmx0.
  by split=> [v _|w]; [exists v; rewrite mulmx1|rewrite mulmx1].
move=> i; exists i => //; split.
  by exists 0%N; rewrite ?Ht ?add0r // !mxE eqxx coef1 oner_neq0.
move=> j z; rewrite !mxE; case: (i =P j) => [<-|_]; last by rewrite coef0 eqxx.
by rewrite coef1 Ht ltnn; case: z => [|z]; rewrite ?eqxx //; lia.
Qed.

Lemma mkb_empty m n s (A : 'M[{poly F}]_(m, n)) (K : 'M[{poly F}]_(0, m)) piv t :
  (forall v : 'rV_m, v *m A = 0 -> v = 0) -> mkb s A K piv t.
Proof.
move=> H; split=> [|[]//|[]//]; split; first by case.
split=> [v /H ->|w _]; first by exists 0; rewrite mul0mx.
by apply/rowP; case.
Qed.

Lemma row1_kernel n (A : 'M[{poly F}]_(1, n)) : A != 0 -> forall v : 'rV_1, v *m A = 0 -> v = 0.
Proof.
move=> NA v vA; apply/eqP; apply: contraNT NA => Nv; apply/eqP/matrixP=> i j; rewrite ord1 [RHS]mxE.
have := congr1 (fun M : 'rV[{poly F}]_n => M 0 j) vA; rewrite !mxE big_ord1 => /eqP.
rewrite mulf_eq0 => /orP[/eqP E|/eqP //]; case/eqP: Nv; apply/rowP=> k; by rewrite ord1 E mxE.
Qed.

Lemma const_rank_kernel m n (A : 'M[{poly F}]_(m, n)) : \rank (map_mx (fun p : {poly F} => p`_0) A) = m ->
  forall v : 'rV_m, v *m A = 0 -> v = 0.
Proof.
move=> rk v vA.
have RF : row_free (map_mx (fun p : {poly F} => p`_0) A) by apply/eqP.
suff H z : forall j, (v 0 j)`_z = 0 by apply/rowP=> j; apply/polyP=> z; rewrite H mxE coef0.
elim/ltn_ind: z => z IH.
suff : (\row_j (v 0 j)`_z) = 0 :> 'rV[F]_m.
  by move=> E j; have := congr1 (fun M : 'rV[F]_m => M 0 j) E; rewrite !mxE.
apply: (row_free_inj RF); rewrite mul0mx; apply/rowP=> j; rewrite !mxE.
have := congr1 (fun M : 'rV[{poly F}]_n => (M 0 j)`_z) vA; rewrite !mxE coef0 coef_sum => E0; rewrite -[RHS]E0.
apply: eq_bigr => l _; rewrite !mxE coefM (bigD1 ord_max) //= subnn big1 ?addr0 // => c NE.
rewrite IH ?mul0r //; have := ltn_ord c.
have : (c : nat) != z by apply: contraNneq NE => E; apply/eqP/val_inj.
lia.
Qed.

Lemma selrows_uniq p m : uniq (selrows p m). Proof. by apply: filter_uniq; apply: iota_uniq. Qed.
Lemma mem_selrows p m i : (i \in selrows p m) = p i && (i < m)%N.
Proof. by rewrite mem_filter mem_iota. Qed.
Lemma selrows_sorted p m : sorted ltn (selrows p m).
Proof. by apply: sorted_filter; [exact: ltn_trans|exact: iota_ltn_sorted]. Qed.

Lemma via_approx_correct v36 modn m n ker0 piv0 (s : nat -> int) A : modn \in [char F] ->
  exists r, kernel_via_approx v36 modn m n ker0 piv0 s A = AOk r /\
    mkb (fun i : 'I_m => s i) (mx_of m n A) (mx_of (kr_nullity r) m (kr_ker r)) (kr_pivind r) (kr_shift r).
Proof.
move=> Hc; rewrite /kernel_via_approx.
case: ifP => [/eqP E0|/negbT N0].
  by eexists; split; first by []; apply: mkb_identity => //; exact: max_length0.
case: ifP => [/eqP E1|N1].
  eexists; split; first by [].
  apply: mkb_empty; subst m; apply: row1_kernel.
  by apply: contraNneq N0 => /max_length0P ->.
case: ifP => [/andP[_ /eqP E2]|N2].
  eexists; split; first by [].
  apply: mkb_empty; apply: const_rank_kernel; rewrite -[RHS]E2; congr (\rank _).
  by apply/matrixP=> i j; rewrite !mxE.
set d := (mat_max_length m n A).-1; set amp := shift_amp m s; set order := (_ + 1)%N.
have [P [t [-> PB PD]]] := pmbasis_correct v36 m n A order s Hc.
eexists; split; first by [].
set r := foldl _ _ _.
have [] := via_loop order d amp t P piv0 s m; rewrite -/r.
set p := fun i => _; set S := selrows p m => E1 E2 E3 _.
rewrite E1.
have Sm (a : 'I_(size S)) : (nth 0%N S a < m)%N.
  by have := mem_nth 0%N (ltn_ord a); rewrite mem_selrows => /andP[].
pose g (a : 'I_(size S)) : 'I_m := Ordinal (Sm a).
have gI : injective g.
  move=> a b /(congr1 val)/= /eqP; rewrite nth_uniq ?selrows_uniq // => /eqP E; exact: val_inj.
have m0 : (0 < m)%N.
  by rewrite lt0n; apply: contraNneq N0 => E; rewrite /mat_max_length E big_ord0.
have sA' (i j : 'I_m) : s i - s j <= amp by exact: shift_ampP.
have amp0 : 0 <= amp by have := sA' (Ordinal m0) (Ordinal m0); rewrite subrr.
have ampE : (absz amp)%:Z = amp by rewrite gez0_abs.
have dA i j : (size (mx_of m n A i j) <= d.+1)%N.
  by rewrite mxE /d prednK ?lt0n //; exact: max_lengthP.
have sA (i j : 'I_m) : s i - s j <= (absz amp)%:Z by rewrite ampE.
have gS i : (exists a, g a = i) <-> (t i - s i + (absz amp)%:Z < order%:Z - d%:Z).
  rewrite ampE -/(p i); split=> [[a <-]|Pi].
    by have := mem_nth 0%N (ltn_ord a); rewrite mem_selrows => /andP[].
  have Si : (i : nat) \in S by rewrite mem_selrows Pi ltn_ord.
  have Hi : (index (i : nat) S < size S)%N by rewrite index_mem.
  by exists (Ordinal Hi); apply/val_inj; rewrite /= nth_index.
have KE : mx_of (size S) m (kr_ker r) = rowsub g (mx_of m m P).
  by apply/matrixP=> a j; rewrite !mxE; have [-> _ _] := E2 a (ltn_ord a).
split.
- by rewrite KE; apply: (kernel_rows_basis PB PD dA sA).
- move=> a; exists (g a); first by have [_ -> _] := E2 a (ltn_ord a).
  have [_ _ ->] := E2 a (ltn_ord a).
  have -> : row a (mx_of (size S) m (kr_ker r)) = row (g a) (mx_of m m P).
    by rewrite KE; apply/rowP=> j; rewrite !mxE.
  exact: (@deg_inv_pvt _ _ _ (fun i : 'I_m => t i) _ (g a) PD).
move=> a b ab; have [_ -> _] := E2 a (ltn_ord a); have [_ -> _] := E2 b (ltn_ord b).
have H := @sorted_ltn_nth _ ltn ltn_trans 0%N S (selrows_sorted p m) a b (ltn_ord a) (ltn_ord b) ab.
exact: H.
Qed.
End K2.
