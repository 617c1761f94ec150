(** C22, C23: truncated inverse and x-adic lifting. *)
From mathcomp Require Import all_ssreflect all_algebra zify.
From Verif Require Import A_base SpecA A_dixon_model A_dixon_proof.
Set Implicit Arguments.
Unset Strict Implicit.
Unset Printing Implicit Defensive.
Import GRing.Theory Num.Theory.
Local Open Scope ring_scope.

Section P.
Variable F : fieldType.

(** inv_trunc answers whether A(0) is invertible; if so S is the inverse modulo X^d,
    of degree less than d; if not, S is left unchanged *)
Theorem C22_inv_trunc v36 modn n S0 (A : fmat {poly F}) d : modn \in [char F] -> (0 < d)%N ->
  exists b S, inv_trunc v36 modn n S0 A d = AOk (b, S) /\
    (b <-> at0 (mx_of n n A) \in unitmx) /\
    (b -> [/\ forall i j, (size (mx_of n n S i j) <= d)%N,
              cong d (mx_of n n S *m mx_of n n A) 1%:M &
              cong d (mx_of n n A *m mx_of n n S) 1%:M]) /\
    (~~ b -> S = S0).
Proof.
move=> Hc Hd; have [b [S [E H1 H2 H3]]] := inv_truncP v36 n S0 A d Hc.
exists b, S; split=> //.
have U : b -> at0 (mx_of n n A) \in unitmx.
  case/H2=> _ /(cong_at0 Hd); rewrite /at0 map_mxM map_mx1 => /mulmx1_unit [] //.
split; first by split=> [|K]; [exact: U | apply: H1].
split=> // Hb; have [H4 H5] := H2 Hb; split=> //; last exact: cong_inv_comm.
move=> i j; rewrite mx_ofE; apply: H4 => //; by move=> _; exact: U.
Qed.

(** at order 0 the answer is always "invertible" *)
Theorem C22_inv_trunc_order0_refuted :
  exists A : fmat {poly F}, at0 (mx_of 1 1 A) \notin unitmx /\
    forall v36 modn S0, modn \in [char F] ->
      exists S, inv_trunc v36 modn 1 S0 A 0 = AOk (true, S).
Proof.
exists fzero; split.
  by rewrite unitmxE det_mx11 at0E mxE coef0 unitfE eqxx.
move=> v36 modn S0 Hc; have [b [S [E H1 _ _]]] := inv_truncP v36 1 S0 fzero 0 Hc.
by exists S; rewrite E; case: (b) H1 => // /(_ (fun H : (0 < 0)%N => False_ind _ (notF H))).
Qed.

(** A X = B modulo X^sigma whenever A(0) is invertible; the loop stops *)
Theorem C23_dixon v36 modn n m X0 (A B : fmat {poly F}) order sigma :
  modn \in [char F] -> (0 < order)%N ->
  exists b X, dixon sigma.+1 v36 modn n m X0 A B order sigma = AOk (Some (b, X)) /\
    (b <-> at0 (mx_of n n A) \in unitmx) /\
    (b -> cong sigma (mx_of n n A *m mx_of n m X) (mx_of n m B)) /\
    (~~ b -> X = X0).
Proof.
move=> Hc Ho; have [b [C [E [Hb [H _]]]]] := C22_inv_trunc v36 n fzero A Hc Ho.
rewrite /dixon E; case: b E Hb H => E Hb H; last first.
  by exists false, X0.
have [_ _ HC] := H isT.
have D : dinv n m A B order 0 (fzero, B).
  rewrite /dinv /= mul0n expr0 scale1r.
  by rewrite (_ : mx_of n m fzero = 0) ?mulmx0 ?add0r //; apply/matrixP=> i j; rewrite !mxE.
have [|X -> HX] := dixon_loopP Hc HC (fuel := sigma.+1) (sigma := sigma) D Ho; first by lia.
by exists true, X.
Qed.

(** with order 0 the loop never stops (sigma > 0) *)
Theorem C23_dixon_order0_diverges fuel v36 modn n m X0 (A B : fmat {poly F}) sigma :
  modn \in [char F] -> (0 < sigma)%N ->
  dixon fuel v36 modn n m X0 A B 0 sigma = AOk None.
Proof.
move=> Hc Hs; have [b [C [E H1 _ _]]] := inv_truncP v36 n fzero A 0 Hc.
have Hb : b by apply: H1.
rewrite /dixon E Hb /=.
have -> // : forall l st, dixon_loop fuel modn n m A C 0 sigma l st = None.
by elim: fuel => [|fuel IH] l st /=; rewrite muln0 Hs.
Qed.
End P.

(** a concrete case: over F_7, A = 1 + X, B = 1, lifting order 1, precision 50 *)
Example C23_example :
  let A : fmat {poly [fieldType of 'F_7]} := fun _ _ => 1 + 'X in
  let B : fmat {poly [fieldType of 'F_7]} := fun _ _ => 1 in
  exists X, dixon 51 true 7 1 1 fzero A B 1 50 = AOk (Some (true, X)) /\
    cong 50 (mx_of 1 1 A *m mx_of 1 1 X) (mx_of 1 1 B).
Proof.
have C : 7%N \in [char [fieldType of 'F_7]] by exact: (@char_Fp 7).
move=> A B; have [b [X [E [Hb [H _]]]]] := C23_dixon true 1 1 fzero A B 50 C (isT : (0 < 1)%N).
have Eb : b.
  apply/Hb; rewrite unitmxE det_mx11 at0E mxE coefD coef1 coefX /= addr0.
  exact: unitr1.
by exists X; move: E; rewrite Eb => ->; split=> //; exact: H.
Qed.

Print Assumptions C22_inv_trunc.
Print Assumptions C22_inv_trunc_order0_refuted.
Print Assumptions C23_dixon.
Print Assumptions C23_dixon_order0_diverges.
Print Assumptions C23_example.
