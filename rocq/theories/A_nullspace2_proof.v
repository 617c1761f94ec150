(** The expanded left nullspace. *)
From mathcomp Require Import all_ssreflect all_algebra zify.
From Verif Require Import A_base A_nullspace_model A_nullspace_proof.
Set Implicit Arguments.
Unset Strict Implicit.
Unset Printing Implicit Defensive.
Import GRing.Theory Num.Theory.
Local Open Scope ring_scope.

Lemma iota_rcons a k : iota a k.+1 = rcons (iota a k) (a + k)%N.
Proof. by rewrite -addn1 iotaD cats1. Qed.

Section Fold.
Variable T : Type.

Lemma foldl_upd_in (p : nat -> nat) (g : nat -> T) f k j :
  {in iota 0 k &, injective p} -> (j < k)%N ->
  foldl (fun f j => upd f (p j) (g j)) f (iota 0 k) (p j) = g j.
Proof.
elim: k => [//|k IH] Hp Hj.
rewrite iota_rcons foldl_rcons /upd add0n.
case: eqP => [E|NE].
  have -> // : j = k.
  by apply: Hp; rewrite ?mem_iota ?add0n //; lia.
apply: IH.
- by move=> x y Hx Hy; apply: Hp; move: Hx Hy; rewrite !mem_iota; lia.
- by have : j <> k by [move=> E; apply: NE; rewrite E]; lia.
Qed.

Lemma foldl_upd_out (p : nat -> nat) (g : nat -> T) f k b :
  (forall j, (j < k)%N -> p j != b) ->
  foldl (fun f j => upd f (p j) (g j)) f (iota 0 k) b = f b.
Proof.
elim: k => [//|k IH] Hp.
rewrite iota_rcons foldl_rcons /upd add0n.
by rewrite eq_sym (negbTE (Hp k _)) //; apply: IH => j Hj; apply: Hp; lia.
Qed.

Lemma foldl_row_upd (p : nat -> nat) (g : nat -> T) (X : fmat T) (i k a : nat) :
  foldl (fun (X : fmat T) j => upd X i (upd (X i) (p j) (g j))) X (iota 0 k) a =
  if a == i then foldl (fun r j => upd r (p j) (g j)) (X i) (iota 0 k) else X a.
Proof.
elim: k a => [|k IH] a; first by rewrite /=; case: (altP (a =P i)) => [->|_].
rewrite iota_rcons !foldl_rcons /= /upd; case: (altP (a =P i)) => [_|NE].
  by rewrite IH eqxx.
by rewrite IH (negbTE NE).
Qed.

Lemma foldl_rows_upd (p : nat -> nat) (Y : nat -> nat -> T) (X : fmat T) nu k a :
  foldl (fun (X : fmat T) i =>
    foldl (fun (X : fmat T) j => upd X i (upd (X i) (p j) (Y i j))) X (iota 0 k))
    X (iota 0 nu) a =
  if (a < nu)%N then foldl (fun r j => upd r (p j) (Y a j)) (X a) (iota 0 k) else X a.
Proof.
elim: nu a => [//|nu IH] a.
rewrite iota_rcons foldl_rcons /= add0n foldl_row_upd !IH ltnn.
case: (altP (a =P nu)) => [->|NE]; first by rewrite ltnSn.
by have -> : (a < nu.+1)%N = (a < nu)%N by lia.
Qed.

Lemma foldl_diag_upd (q : nat -> nat) (x : T) (X : fmat T) nu a :
  foldl (fun (X : fmat T) i => upd X i (upd (X i) (q i) x)) X (iota 0 nu) a =
  if (a < nu)%N then upd (X a) (q a) x else X a.
Proof.
elim: nu a => [//|nu IH] a.
rewrite iota_rcons foldl_rcons add0n {1}/upd.
case: (altP (a =P nu)) => [->|NE]; first by rewrite ltnSn IH ltnn.
by rewrite IH; have -> : (a < nu.+1)%N = (a < nu)%N by lia.
Qed.
End Fold.

Section Expand.
Variable F : fieldType.
Variables m n : nat.
Variable A : fmat F.
Let rr := rrp n A m.
Let nr := nrp n A m.

Lemma left_nullspaceE :
  exists X, left_nullspace m n A = (size nr, X) /\
  forall i, (i < size nr)%N ->
    (forall j, (j < size rr)%N -> X i (nth 0%N rr j) = - cf n A m (nth 0%N nr i) j) /\
    (forall j, (j < size nr)%N -> X i (nth 0%N nr j) = (i == j)%:R).
Proof.
rewrite /left_nullspace.
have [K [-> HK]] := left_nullspace_compactE m n A.
have szrr : (m - size nr = size rr)%N by rewrite -{1}(size_rrp_nrp n A m) addnK.
rewrite -/nr -/rr szrr.
eexists; split; first by [].
move=> i Hi.
have nth1 j : (j < size rr)%N -> nth 0%N (rr ++ nr) j = nth 0%N rr j by move=> H; rewrite nth_cat H.
have nth2 j : nth 0%N (rr ++ nr) (size rr + j) = nth 0%N nr j.
  by rewrite nth_cat ltnNge leq_addr /= addKn.
split=> j Hj; rewrite foldl_rows_upd Hi.
  rewrite -nth1 // foldl_upd_in //; first exact: HK.
  move=> x y; rewrite !mem_iota !add0n => Hx Hy.
  rewrite !nth1 //.
  by move/eqP; rewrite nth_uniq ?rrp_uniq // => /eqP.
rewrite foldl_upd_out; last first.
  by move=> k Hk; rewrite nth1 //; exact: rr_nr_neq.
rewrite foldl_diag_upd Hi /upd nth2 nth_uniq ?nrp_uniq // eq_sym.
by case: (i == j).
Qed.
End Expand.
