(** Invariant of the row by row weak Popov loop. *)
From mathcomp Require Import all_ssreflect all_algebra perm fraction zify.
From Verif Require Import A_base SpecA SpecForms SpecLU A_forms_model A_forms_proof A_forms2_proof.
From Verif Require Import A_rot_model A_rot_proof A_wpopov_model A_rowops_proof A_wpopov_proof.
Set Implicit Arguments.
Unset Strict Implicit.
Unset Printing Implicit Defensive.
Import Order.TTheory GRing.Theory Num.Theory.
Local Open Scope ring_scope.

(** a property of tsf before and after, when it is not NULL *)
Definition orel (T : Type) (P : T -> T -> Prop) (x y : option T) : Prop :=
  match x, y with Some a, Some b => P a b | None, None => True | _, _ => False end.

Lemma orel_map T (P : T -> T -> Prop) (f : T -> T) x : (forall a, P a (f a)) -> orel P x (omap f x).
Proof. by case: x => [a|] H /=. Qed.

Lemma orel_impl T (P Q : T -> T -> Prop) x y : (forall a b, P a b -> Q a b) -> orel P x y -> orel Q x y.
Proof. by case: x => [a|]; case: y => [b|] //= H; exact: H. Qed.

Lemma orel_step T (P Q R : T -> T -> Prop) x y (f : T -> T) :
  (forall a b, P a b -> Q b (f b) -> R a (f b)) -> (forall b, Q b (f b)) ->
  orel P x y -> orel R x (omap f y).
Proof. by case: x => [a|]; case: y => [b|] //= H Hf Pab; apply: H. Qed.

Section Sh.
Variable T : Type.
(** the rows from rstart on *)
Definition sh rstart (A : nat -> T) : nat -> T := fun i => A (rstart + i)%N.

Lemma sh_rot rstart rk rdim (A : nat -> T) k : (rk < rdim)%N ->
  sh rstart (rot_up A (rstart + rk) (rstart + rdim - 1)) k = rot_up (sh rstart A) rk (rdim - 1) k.
Proof.
move=> H; rewrite /sh !rot_upE; try lia.
have -> : (rstart + k == rstart + rdim - 1)%N = (k == rdim - 1)%N by lia.
have -> : (rstart + rk <= rstart + k < rstart + rdim - 1)%N = (rk <= k < rdim - 1)%N by lia.
by rewrite addnS.
Qed.

Lemma rotate_rot (V : Type) (A : nat -> nat -> T) i j k l : (i <= j)%N ->
  (rotate_rows_upward (V := V) A None i j).1 k l = rot_up A i j k l.
Proof.
move=> H; rewrite /rotate_rows_upward; case: (i =P j) => [->|] //=.
rewrite rot_upE //; case: eqP => [->|_] //.
by have -> : (j <= k < j)%N = false by lia.
Qed.
End Sh.

Section Loop.
Variables (F : fieldType) (n cT : nat) (shift : option (nat -> int)).
Variables (rstart rdim cdim early : nat) (o : orientation).
Hypothesis (Ho : o = ROW_LOWER \/ o = ROW_UPPER) (Hcd : (cdim <= n)%N).
Local Notation P := {poly F}.
Variables (A0 : fmat P) (T0 : option (fmat P)) (det0 : option int) (pivind0 : nat -> int)
  (rrp0 : option (nat -> nat)).
Let s := shiftf shift.
Let up := up_of o.
Local Notation sh := (sh rstart).
Local Notation top p A := (top p cdim (sh A)).

(** the swap and the row operation of a collision, on p rows *)
Lemma collision_op p rk pi sw (u : P) : (pi < rk < p)%N ->
  exists2 U : 'M[P]_p, \det U = (-1) ^+ (sw : bool) &
    forall c (M M' : fmat P),
      (forall i j, (i < p)%N -> (j < c)%N -> M' (rstart + i)%N j =
         let M1 := if sw then swap_rows M (rstart + pi)%N (rstart + rk)%N else M in
         if i == rk then M1 (rstart + rk)%N j + u * M1 (rstart + pi)%N j else M1 (rstart + i)%N j) ->
      lmul c U (sh M) (sh M').
Proof.
case/andP=> H1 H2; have H1' : (pi < p)%N by lia.
pose a := Ordinal H1'; pose b := Ordinal H2.
have Nab : b != a by rewrite -val_eqE /=; lia.
exists (addU b a u *m (if sw then perm_mx (tperm a b) else 1%:M)).
  rewrite det_mulmx det_addU // mul1r; case: (sw); last by rewrite det1.
  by rewrite det_swap // eq_sym.
move=> c M M' E.
apply: (@lmul_comp _ _ _ _ _ _ (sh (if sw then swap_rows M (rstart + pi)%N (rstart + rk)%N else M))).
  case: (sw); last by apply: lmul1.
  apply: lmul_swap; rewrite /sh.
  - by move=> j Hj; rewrite swap_rowsE eqxx.
  - by move=> j Hj; rewrite swap_rowsE eqxx; case: eqP => // E'; exfalso; move: E'; rewrite /=; lia.
  - move=> i j Hi Hj /= N1 N2; rewrite swap_rowsE.
    by rewrite !eqn_add2l (negbTE N1) (negbTE N2).
apply: lmul_add; rewrite /sh.
- by move=> j Hj; rewrite E //= eqxx.
- by move=> i j Hi Hj /= N1; rewrite E //= (negbTE N1).
Qed.

Record inv (st : wp_state F) : Prop := Inv {
  i_U : exists b, exists2 U : 'M[P]_rdim, \det U = (-1) ^+ (b : bool) &
    [/\ lmul n U (sh A0) (sh (wp_mat st)),
        orel (fun B B' => lmul cT U (sh B) (sh B')) T0 (wp_tsf st) &
        wp_det st = omap (fun d => (-1) ^+ b * d) det0];
  i_out : (forall k j, (k < rstart)%N || (rstart + rdim <= k)%N -> wp_mat st k j = A0 k j) /\
    orel (fun B B' => forall k j, (k < rstart)%N || (rstart + rdim <= k)%N -> B' k j = B k j)
      T0 (wp_tsf st);
  i_le : (wp_rk st + wp_zr st <= rdim)%N;
  i_piv : forall i, (i < wp_rk st)%N -> exists j, [/\ wp_pivind st i = j%:Z,
    fpiv up cdim s (wp_mat st (rstart + i)%N) j & wp_prow st j = i%:Z];
  i_prow : forall j, (j < cdim)%N -> wp_prow st j = -1 \/
    exists i, [/\ (i < wp_rk st)%N, wp_prow st j = i%:Z & wp_pivind st i = j%:Z];
  i_zero : forall i, (rdim - wp_zr st <= i < rdim)%N -> zvec (wp_mat st (rstart + i)%N) cdim;
  i_rest : forall i j, (wp_rk st < i < rdim - wp_zr st)%N -> (j < cdim)%N ->
    wp_mat st (rstart + i)%N j = A0 (rstart + (i + wp_zr st))%N j;
  i_span : (wp_rk st + wp_zr st < rdim)%N ->
    (top (wp_rk st).+1 (wp_mat st) :=: top (wp_rk st + wp_zr st).+1 A0)%MS;
  i_rank : \rank (top (wp_rk st + wp_zr st) A0) = wp_rk st;
  i_rrp : orel (fun r0 r => [/\ forall k, (wp_rk st <= k)%N -> r k = r0 k,
      forall k, (k < wp_rk st)%N -> (r k < wp_rk st + wp_zr st)%N,
      forall k k', (k < k' < wp_rk st)%N -> (r k < r k')%N &
      forall i, (i <= wp_rk st + wp_zr st)%N ->
        \rank (top i A0) = (\sum_(k < wp_rk st) (r k < i))%N]) rrp0 (wp_rrp st);
  i_frame : forall i, (rdim <= i)%N -> wp_pivind st i = pivind0 i }.

Lemma piv_inj st : inv st -> forall i i', (i < wp_rk st)%N -> (i' < wp_rk st)%N ->
  wp_pivind st i = wp_pivind st i' -> i = i'.
Proof.
move=> I i i' Hi Hi'; have [j [-> _ E]] := i_piv I Hi; have [j' [-> _ E']] := i_piv I Hi'.
by case=> Ej; move: E; rewrite Ej E'; case.
Qed.

Lemma top_rk st : inv st -> \rank (top (wp_rk st) (wp_mat st)) = wp_rk st.
Proof.
move=> I; have H i : (i < wp_rk st)%N -> fpiv up cdim s (wp_mat st (rstart + i)%N) `|wp_pivind st i|%N.
  by move=> Hi; have [j [-> Q _]] := i_piv I Hi.
apply: (@top_rank _ up s _ _ _ (fun i => `|wp_pivind st i|%N) H).
move=> i i' Hi Hi'; have [j [-> _ E]] := i_piv I Hi; have [j' [-> _ E']] := i_piv I Hi'.
by rewrite !absz_nat => Ej; move: E; rewrite Ej E'; case.
Qed.

Lemma rank_topS p (A : fmat P) : (\rank (top p.+1 A) <= (\rank (top p A)).+1)%N.
Proof.
rewrite topS; set y := map_mx _ _.
have [H _] := mxrank_adds_leqif (top p A) y; have := rank_leq_row y.
by move: (\rank _) (\rank _) (\rank _) H => ? ? ?; lia.
Qed.

Lemma rank_def p q (A : fmat P) : (p <= q)%N -> (\rank (top p A) < p)%N -> (\rank (top q A) < q)%N.
Proof.
move=> /subnK <-; elim: (q - p)%N => // d IH H; rewrite addSn.
by apply: leq_ltn_trans (rank_topS _ _) _; rewrite ltnS; exact: IH.
Qed.

Definition pot a (st : wp_state F) : nat :=
  (\sum_(i < rdim) weight shift cdim o a (wp_mat st (rstart + i)) + (rdim - (wp_rk st + wp_zr st)))%N.

Lemma step_new st j : inv st -> (wp_rk st + wp_zr st < rdim)%N ->
  fpiv up cdim s (wp_mat st (rstart + wp_rk st)%N) j -> wp_prow st j = -1 ->
  inv (WP (wp_mat st) (wp_tsf st) (wp_det st) (upd (wp_pivind st) (wp_rk st) j%:Z)
          (omap (fun r => upd r (wp_rk st) (wp_rk st + wp_zr st)%N) (wp_rrp st))
          (upd (wp_prow st) j (wp_rk st)%:Z) (wp_rk st).+1 (wp_zr st)).
Proof.
move=> I L Q N.
have R1 : \rank (top (wp_rk st).+1 (wp_mat st)) = (wp_rk st).+1.
  pose g i := if (i < wp_rk st)%N then `|wp_pivind st i|%N else j.
  apply: (@top_rank _ up s _ _ _ g).
    move=> i; rewrite ltnS leq_eqVlt => /orP[/eqP ->|Hi]; rewrite /g ?ltnn // Hi.
    by have [j' [-> Q' _]] := i_piv I Hi.
  have G i : (i < wp_rk st)%N -> exists2 j', g i = j' & wp_prow st j' = i%:Z.
    by move=> Hi; rewrite /g Hi; have [j' [-> _ E]] := i_piv I Hi; exists j'.
  move=> i i'; rewrite !ltnS leq_eqVlt => /orP[/eqP Ei|Hi]; rewrite leq_eqVlt => /orP[/eqP Ei'|Hi'].
  - by move=> _; lia.
  - have [j' -> E] := G _ Hi'; rewrite /g Ei ltnn => Ej; move: E; rewrite -Ej N; lia.
  - have [j' -> E] := G _ Hi; rewrite /g Ei' ltnn => Ej; move: E; rewrite Ej N; lia.
  - have [j1 -> E1] := G _ Hi; have [j2 -> E2] := G _ Hi' => Ej; move: E1; rewrite Ej E2; case; lia.
have R2 : \rank (top (wp_rk st + wp_zr st).+1 A0) = (wp_rk st).+1 by rewrite -(i_span I L) R1.
case: I R1 R2 => iU iO iL iP iR iZ iS iV iK iRR iF R1 R2; split=> //=.
- move=> i; rewrite ltnS leq_eqVlt => /orP[/eqP ->|Hi].
    by exists j; rewrite /upd !eqxx.
  have [j' [E1 Q' E2]] := iP i Hi; exists j'; split=> //; rewrite /upd.
    by rewrite ifF //; lia.
  by case: eqP => // Ej; move: E2; rewrite Ej N; lia.
- move=> j' Hj'; rewrite /upd; case: (j' =P j) => [->|Nj].
    by right; exists (wp_rk st); rewrite eqxx.
  have [->|[i [Hi E1 E2]]] := iR j' Hj'; [by left|right].
  by exists i; split; [lia|done|rewrite ifF //; lia].
- by move=> i j' Hi; apply: iS; lia.
- move=> L'; apply: eqmx_trans (topS _ _ _) _; apply: eqmx_sym; apply: eqmx_trans (topS _ _ _) _.
  apply: eqmx_sym; apply: adds_eqmx; first exact: iV.
  suff -> : mx_of 1 cdim (frow_vec (sh (wp_mat st) (wp_rk st).+1)) =
            mx_of 1 cdim (frow_vec (sh A0 ((wp_rk st).+1 + wp_zr st))) by [].
  by apply: mx_of_feq => i j' _ Hj'; rewrite /frow_vec /sh iS //; lia.
- move: iRR; case: (wp_rrp st) => [r|]; case: rrp0 => [r0|] //= [F1 F2 F3 F4]; rewrite /upd; split.
  + by move=> k Hk; rewrite ifF; [apply: F1; lia|lia].
  + by move=> k Hk; case: eqP => // Nk; have := F2 k; lia.
  + move=> k k' Hk; have -> : (k == wp_rk st) = false by lia.
    case: eqP => [E|Nk]; first by have := F2 k; lia.
    by apply: F3; lia.
  + move=> i Hi; rewrite big_ord_recr /= eqxx.
    have -> : (\sum_(k < wp_rk st) ((if k == wp_rk st :> nat then (wp_rk st + wp_zr st)%N else r k) < i)%N =
               \sum_(k < wp_rk st) (r k < i)%N)%N.
      by apply: eq_bigr => k _; rewrite ifF //; have := ltn_ord k; lia.
    move: Hi; rewrite leq_eqVlt => /orP[/eqP Ei|Hi]; last first.
      have -> : (wp_rk st + wp_zr st < i)%N = false by lia.
      by rewrite addn0; apply: F4; lia.
    rewrite Ei R2; have -> : (wp_rk st + wp_zr st < (wp_rk st).+1 + wp_zr st)%N by lia.
    rewrite addn1; congr _.+1; transitivity (\sum_(k < wp_rk st) 1)%N; first by rewrite sum1_card card_ord.
    by apply: eq_bigr => k _; have := F2 k (ltn_ord k); case: ltnP => //; lia.
- by move=> i Hi; rewrite /upd ifF; [apply: iF|lia].
Qed.

Lemma step_zero st x : inv st -> (wp_rk st + wp_zr st < rdim)%N ->
  zvec (wp_mat st (rstart + wp_rk st)%N) cdim ->
  let rot (M : fmat P) :=
    (rotate_rows_upward (V := nat) M None (rstart + wp_rk st)%N (rstart + rdim - 1)%N).1 in
  let st' := WP (rot (wp_mat st)) (omap rot (wp_tsf st))
     (omap (fun d => if odd (rdim - 1 - wp_rk st) then - d else d) (wp_det st))
     (upd (wp_pivind st) (wp_rk st) x) (wp_rrp st) (wp_prow st) (wp_rk st) (wp_zr st).+1 in
  inv st' /\ forall a, (pot a st' < pot a st)%N.
Proof.
move=> I L Z rot st'.
have Hr : (rstart + wp_rk st <= rstart + rdim - 1)%N by lia.
have RE M k l : rot M k l = rot_up M (rstart + wp_rk st) (rstart + rdim - 1) k l by exact: rotate_rot.
have RS M k l : rot M (rstart + k)%N l = rot_up (sh M) (wp_rk st) (rdim - 1) k l.
  by rewrite RE -[LHS]/(sh (rot_up M (rstart + wp_rk st) (rstart + rdim - 1)) k l) sh_rot //; lia.
have Rlt k M l : (k < wp_rk st)%N -> rot M (rstart + k)%N l = M (rstart + k)%N l.
  move=> Hk; rewrite RS rot_upE; last by lia.
  have -> : (k == rdim - 1)%N = false by lia.
  by have -> : (wp_rk st <= k < rdim - 1)%N = false by lia.
have Rmid k M l : (wp_rk st <= k < rdim - 1)%N -> rot M (rstart + k)%N l = M (rstart + k.+1)%N l.
  move=> Hk; rewrite RS rot_upE; last by lia.
  have -> : (k == rdim - 1)%N = false by lia.
  by rewrite Hk.
have Rlast M l : rot M (rstart + (rdim - 1))%N l = M (rstart + wp_rk st)%N l.
  by rewrite RS rot_upE ?eqxx //; lia.
have S1 : (top (wp_rk st).+1 (wp_mat st) :=: top (wp_rk st) (wp_mat st))%MS.
  apply: eqmx_trans (topS _ _ _) _.
  have -> : mx_of 1 cdim (frow_vec (sh (wp_mat st) (wp_rk st))) = 0.
    by apply/matrixP=> a b; rewrite !mxE /frow_vec /sh Z.
  by rewrite map_mx0; exact: addsmx0.
have R1 : \rank (top (wp_rk st + wp_zr st).+1 A0) = wp_rk st.
  by rewrite -(i_span I L) S1 top_rk.
split.
  case: I S1 R1 => iU iO iL iP iR iZ iS iV iK iRR iF S1 R1; split=> //=.
  - have [b [U dU [E1 E2 E3]]] := iU.
    have [|V dV HV] := @lmul_rot [comRingType of P] rdim (wp_rk st) (rdim - 1 - wp_rk st); first by lia.
    have Er : (wp_rk st + (rdim - 1 - wp_rk st))%N = (rdim - 1)%N by lia.
    have HV' c (M : fmat P) : lmul c V (sh M) (sh (rot M)).
      by apply: HV => k j Hk Hj; rewrite Er -RS.
    exists (b (+) odd (rdim - 1 - wp_rk st)); exists (V *m U).
      by rewrite det_mulmx dV dU mulrC signr_addb.
    split.
    + exact: lmul_comp E1 (HV' _ _).
    + move: E2; case: (wp_tsf st) => [B'|]; case: T0 => [B|] //= E2.
      exact: lmul_comp E2 (HV' _ _).
    + rewrite E3; case: det0 => [d|] //=; congr Some; rewrite signr_addb.
      by case: odd; rewrite ?expr1 ?expr0 ?mulr1 // mulrN1 mulNr.
  - case: iO => O1 O2.
    have Ro k (M : fmat P) j : (k < rstart)%N || (rstart + rdim <= k)%N -> rot M k j = M k j.
      move=> Hk; rewrite RE rot_upE //.
      have -> : (k == rstart + rdim - 1)%N = false by lia.
      by have -> : (rstart + wp_rk st <= k < rstart + rdim - 1)%N = false by lia.
    split; first by move=> k j Hk; rewrite Ro // O1.
    move: O2; case: (wp_tsf st) => [B'|]; case: T0 => [B|] //= O2 k j Hk.
    by rewrite Ro // O2.
  - by lia.
  - move=> i Hi; have [j [E1 Q E2]] := iP i Hi; exists j; split=> //.
      by rewrite /upd ifF //; lia.
    by apply: fpiv_ext Q => k Hk; rewrite Rlt.
  - move=> j Hj; have [->|[i [Hi E1 E2]]] := iR j Hj; [by left|right].
    by exists i; split=> //; rewrite /upd ifF //; lia.
  - move=> i Hi k Hk; have [->|Li] : i = (rdim - 1)%N \/ (i < rdim - 1)%N by lia.
      by rewrite Rlast Z.
    by rewrite Rmid; [apply: iZ; lia|lia].
  - move=> i j Hi Hj; rewrite Rmid; last by lia.
    by rewrite iS; [congr (A0 _ _); lia|lia|].
  - move=> L'; apply: eqmx_trans (topS _ _ _) _; apply: eqmx_sym; rewrite addnS.
    apply: eqmx_trans (topS _ _ _) _.
    apply: eqmx_sym; apply: adds_eqmx.
      apply: eqmx_trans (iV L); apply: eqmx_sym; apply: eqmx_trans S1 _.
      by rewrite (@top_ext _ _ _ _ (sh (rot (wp_mat st)))) // => i j Hi Hj; rewrite /sh Rlt.
    suff -> : mx_of 1 cdim (frow_vec (sh (rot (wp_mat st)) (wp_rk st))) =
              mx_of 1 cdim (frow_vec (sh A0 (wp_rk st + wp_zr st).+1)) by [].
    apply: mx_of_feq => i j _ Hj; rewrite /frow_vec /sh Rmid; last by lia.
    by rewrite iS; [congr (A0 _ _); lia|lia|].
  - by rewrite addnS.
  - move: iRR; case: (wp_rrp st) => [r|]; case: rrp0 => [r0|] //= [F1 F2 F3 F4]; split=> //.
      by move=> k Hk; have := F2 k Hk; lia.
    move=> i; rewrite addnS leq_eqVlt => /orP[/eqP ->|Hi]; last by apply: F4; lia.
    rewrite R1; transitivity (\sum_(k < wp_rk st) 1)%N; first by rewrite sum1_card card_ord.
    by apply: eq_bigr => k _; have := F2 k (ltn_ord k); case: ltnP => //; lia.
  - by move=> i Hi; rewrite /upd ifF; [apply: iF|lia].
move=> a; rewrite /pot /=.
have -> : (\sum_(i < rdim) weight shift cdim o a (rot (wp_mat st) (rstart + i)%N) =
           \sum_(i < rdim) weight shift cdim o a (wp_mat st (rstart + i)%N))%N.
  pose p := rot_up id (wp_rk st) (rdim - 1).
  have Pp : is_perm rdim p by apply: is_perm_up => //; lia.
  rewrite -(@sum_perm rdim p (fun i => weight shift cdim o a (wp_mat st (rstart + i)%N)) Pp).
  apply: eq_bigr => i _; apply: weight_ext => k Hk; rewrite RS /p.
  have h : (wp_rk st <= rdim - 1)%N by lia.
  by rewrite (rot_upE _ _ h) (rot_upE id _ h); case: eqP => // _; case: ifP.
by move: L; rewrite /st'; move: (\sum_(i < rdim) _)%N => y; lia.
Qed.

Lemma step_coll st j pi A' T' x : inv st -> (wp_rk st + wp_zr st < rdim)%N ->
  fpiv up cdim s (wp_mat st (rstart + wp_rk st)%N) j ->
  (pi < wp_rk st)%N -> wp_pivind st pi = j%:Z ->
  let sw := pdeg (wp_mat st (rstart + wp_rk st)%N j) < pdeg (wp_mat st (rstart + pi)%N j) in
  let swap (M : fmat P) := if sw then swap_rows M (rstart + pi)%N (rstart + wp_rk st)%N else M in
  atomic_solve_pivot_collision n cT (swap (wp_mat st)) (omap swap (wp_tsf st))
    (rstart + wp_rk st)%N (rstart + pi)%N j = AOk (A', T') ->
  let st' := WP A' T' (omap (fun d => if sw && (pi != wp_rk st) then - d else d) (wp_det st))
     (upd (wp_pivind st) (wp_rk st) x) (wp_rrp st) (wp_prow st) (wp_rk st) (wp_zr st) in
  inv st' /\ forall a, (forall j, (j < cdim)%N -> a <= s j) -> (pot a st' < pot a st)%N.
Proof.
move=> I L Q Hpi Epi sw swap; rewrite /atomic_solve_pivot_collision.
set l1 := size _; set l2 := size _; set e := (l1 - l2)%N; set cst := - _; set u := cst *: 'X^e.
case: ifP => // C [<- <-].
have Q2 : fpiv up cdim s (wp_mat st (rstart + pi)%N) j.
  by have [j' [E Q' _]] := i_piv I Hpi; move: E; rewrite Epi => -[->].
have Npi : (pi == wp_rk st) = false by lia.
have Nr : (rstart + wp_rk st)%N != (rstart + pi)%N by lia.
have SE M k l : swap M (rstart + k)%N l =
    M (rstart + (if sw then if k == pi then wp_rk st else if k == wp_rk st then pi else k else k))%N l.
  rewrite /swap; case: (sw) => //; rewrite swap_rowsE !eqn_add2l.
  by case: eqP => // _; case: eqP.
have Wpi : fpiv up cdim s (swap (wp_mat st) (rstart + pi)%N) j.
  rewrite /swap; case: (sw) => //; apply: (fpiv_ext _ Q) => k Hk.
  by rewrite swap_rowsE eqxx.
have Wrk : fpiv up cdim s (swap (wp_mat st) (rstart + wp_rk st)%N) j.
  rewrite /swap; case: (sw) => //; apply: (fpiv_ext _ Q2) => k Hk.
  by rewrite swap_rowsE eqn_add2l eq_sym Npi eqxx.
have AE c M k l : addmul_row c (swap M) (rstart + wp_rk st)%N (rstart + pi)%N cst e (rstart + k)%N l =
    if (k == wp_rk st) && (l < c)%N then swap M (rstart + wp_rk st)%N l + u * swap M (rstart + pi)%N l
    else swap M (rstart + k)%N l.
  by rewrite addmul_rowE // eqn_add2l.
have AK c M k l : (k < rstart)%N || (rstart + rdim <= k)%N ->
    addmul_row c (swap M) (rstart + wp_rk st)%N (rstart + pi)%N cst e k l = M k l.
  move=> Hk; rewrite addmul_rowE //.
  have -> : (k == rstart + wp_rk st)%N = false by lia.
  rewrite /= /swap; case: (sw) => //; rewrite swap_rowsE.
  have -> : (k == rstart + wp_rk st)%N = false by lia.
  by have -> : (k == rstart + pi)%N = false by lia.
have Op p c' c M : (wp_rk st < p)%N -> (c <= c')%N ->
   forall i l, (i < p)%N -> (l < c)%N ->
     addmul_row c' (swap M) (rstart + wp_rk st)%N (rstart + pi)%N cst e (rstart + i)%N l =
     let M1 := if sw then swap_rows M (rstart + pi)%N (rstart + wp_rk st)%N else M in
     if i == wp_rk st then M1 (rstart + wp_rk st)%N l + u * M1 (rstart + pi)%N l
     else M1 (rstart + i)%N l.
  move=> Hp Hc i l Hi Hl; rewrite AE /=; have -> : (l < c')%N by lia.
  by rewrite andbT.
split.
  case: I => iU iO iL iP iR iZ iS iV iK iRR iF; split=> //=.
  - have [b [U dU [E1 E2 E3]]] := iU.
    have [|V dV HV] := @collision_op rdim (wp_rk st) pi sw u; first by lia.
    exists (b (+) sw); exists (V *m U); first by rewrite det_mulmx dV dU mulrC signr_addb.
    split.
    + by apply: lmul_comp E1 (HV _ _ _ _); apply: (Op rdim) => //; lia.
    + move: E2; case: (wp_tsf st) => [B'|]; case: T0 => [B|] //= E2.
      by apply: lmul_comp E2 (HV _ _ _ _); apply: (Op rdim) => //; lia.
    + rewrite E3 Npi andbT; case: det0 => [d|] //=; congr Some; rewrite signr_addb.
      by case: (sw); rewrite ?expr1 ?expr0 ?mulr1 // mulrN1 mulNr.
  - case: iO => O1 O2; split; first by move=> k l Hk; rewrite AK // O1.
    move: O2; case: (wp_tsf st) => [B'|]; case: T0 => [B|] //= O2 k l Hk.
    by rewrite AK // O2.
  - move=> i Hi; have [j' [E1 Q' E2]] := iP i Hi; exists j'; split=> //.
      by rewrite /upd ifF //; lia.
    have [Ei|Ni] := eqVneq i pi.
      have Ej : j' = j by move: E1; rewrite Ei Epi => -[].
      rewrite Ej Ei; apply: fpiv_ext Wpi => k Hk; rewrite AE Npi //.
    apply: fpiv_ext Q' => k Hk; rewrite AE ifF; last by lia.
    rewrite SE (negbTE Ni); have -> : (i == wp_rk st) = false by lia.
    by rewrite if_same.
  - move=> j' Hj'; have [->|[i [Hi E1 E2]]] := iR j' Hj'; [by left|right].
    by exists i; split=> //; rewrite /upd ifF //; lia.
  - move=> i Hi k Hk; rewrite AE ifF; last by lia.
    rewrite SE; have -> : (i == pi) = false by lia.
    have -> : (i == wp_rk st) = false by lia.
    by rewrite if_same; apply: iZ.
  - move=> i l Hi Hl; rewrite AE ifF; last by lia.
    rewrite SE; have -> : (i == pi) = false by lia.
    have -> : (i == wp_rk st) = false by lia.
    by rewrite if_same; apply: iS.
  - move=> L'; apply: eqmx_trans (iV L).
    have [|V dV HV] := @collision_op (wp_rk st).+1 (wp_rk st) pi sw u; first by lia.
    apply: (top_lmul (U := V)); first by rewrite dV signr_eq0.
    by apply: HV; apply: (Op (wp_rk st).+1).
  - by move=> i Hi; rewrite /upd ifF; [apply: iF|lia].
move=> a Ha; rewrite /pot /= ltn_add2r.
have H1 : (pi < rdim)%N by lia.
have H2 : (wp_rk st < rdim)%N by lia.
have N12 : Ordinal H2 != Ordinal H1 by rewrite -val_eqE /=; lia.
rewrite (bigD1 (Ordinal H1)) //= (bigD1 (Ordinal H2)) //=.
rewrite [X in (_ < X)%N](bigD1 (Ordinal H1)) //= [X in (_ < _ + X)%N](bigD1 (Ordinal H2)) //=.
set wt := weight shift cdim o a.
rewrite !addnA.
have -> : (\sum_(i < rdim | (i != Ordinal H1) && (i != Ordinal H2))
    wt (addmul_row n (swap (wp_mat st)) (rstart + wp_rk st) (rstart + pi) cst e (rstart + i)))%N =
  (\sum_(i < rdim | (i != Ordinal H1) && (i != Ordinal H2)) wt (wp_mat st (rstart + i)))%N.
  apply: eq_bigr => i /andP[]; rewrite -!val_eqE /= => N1 N2.
  apply: weight_ext => k Hk; rewrite AE (negbTE N2) /= SE (negbTE N1) (negbTE N2).
  by rewrite if_same.
rewrite ltn_add2r.
have Sz : (l2 <= l1)%N by move: C; clear; move: (l1) (l2) => ? ?; lia.
have D : (wt (addmul_row n (swap (wp_mat st)) (rstart + wp_rk st) (rstart + pi) cst e (rstart + wp_rk st))
          < wt (swap (wp_mat st) (rstart + wp_rk st)%N))%N.
  apply: (weight_collision Ha Wrk Wpi Sz) => k Hk; rewrite AE eqxx /=.
  by have -> : (k < n)%N by lia.
have E1 : (wt (addmul_row n (swap (wp_mat st)) (rstart + wp_rk st) (rstart + pi) cst e (rstart + pi)) =
          wt (swap (wp_mat st) (rstart + pi)))%N.
  by apply: weight_ext => k Hk; rewrite AE Npi.
rewrite E1.
have E2 : (wt (swap (wp_mat st) (rstart + pi)) + wt (swap (wp_mat st) (rstart + wp_rk st)) =
           wt (wp_mat st (rstart + pi)) + wt (wp_mat st (rstart + wp_rk st)))%N.
  have X k : wt (swap (wp_mat st) (rstart + k)%N) = wt (wp_mat st (rstart + (if sw then if k == pi then wp_rk st else if k == wp_rk st then pi else k else k)))%N.
    by apply: weight_ext => l Hl; rewrite SE.
  rewrite !X !eqxx eq_sym Npi; case: (sw) => //; exact: addnC.
by move: D E2; move: (wt _) (wt _) (wt _) (wt _) (wt _) => ? ? ? ? ?; lia.
Qed.

(** the loop can only go wrong for a zero row with orientation ROW_UPPER and a shift *)
Definition bad : Prop :=
  [/\ o = ROW_UPPER, shift <> None & (\rank (top rdim A0) < rdim)%N].

Lemma stepP st : inv st -> (wp_rk st + wp_zr st < rdim)%N ->
  (wp_step n cT shift rstart 0 rdim cdim o st = AUB /\ bad) \/
  exists st', [/\ wp_step n cT shift rstart 0 rdim cdim o st = AOk st', inv st' &
    forall a, (forall j, (j < cdim)%N -> a <= s j) -> (pot a st' < pot a st)%N].
Proof.
move=> I L.
set v := wp_mat st (rstart + wp_rk st)%N.
have R0 : zvec v cdim -> (\rank (top rdim A0) < rdim)%N.
  move=> Z; apply: (@rank_def (wp_rk st + wp_zr st).+1) => //.
  rewrite -(i_span I L) topS.
  have -> : mx_of 1 cdim (frow_vec (sh (wp_mat st) (wp_rk st))) = 0.
    by apply/matrixP=> a b; rewrite !mxE /frow_vec; exact: Z.
  by rewrite map_mx0 addsmx0 top_rk //; lia.
have := vec_pivot_profileP v shift cdim o.
rewrite /wp_step; case E: st => [A T det pivind rrp prow rk zr].
have -> : vec_pivot_profile (fun j => A (rstart + rk)%N (0 + j)%N) shift cdim o = vec_pivot_profile v shift cdim o.
  by rewrite /v E.
case=> [[Z ->]|[j Q ->]].
  case: (zpivind cdim shift o =P zpiv cdim o) => [_|N].
    right; have := step_zero (zpivind cdim shift o) I L Z; cbv zeta; rewrite E /= => -[I' D].
    by eexists; split; [reflexivity|exact: I'|move=> a _; exact: D].
  have [Eo Es] : o = ROW_UPPER /\ shift <> None.
    by move: N; rewrite /zpivind /zpiv /up_of; case: Ho => -> //; case: shift.
  left; split; last by split=> //; exact: R0.
  by rewrite /zpivind Eo /=; case: (shift) Es.
have [Hj _ _ _] := Q.
have -> : (j%:Z == zpiv cdim o) = false.
  by rewrite /zpiv; case: Ho => ->; lia.
have -> : (j%:Z < 0) || (cdim%:Z <= j%:Z) = false by lia.
right; rewrite absz_nat.
case: (i_prow I Hj) => [Ep|[pi [Hpi Ep Epi]]].
  have := step_new I L Q Ep; move: Ep; rewrite E /= => -> I'.
  rewrite eqxx; eexists; split; [reflexivity|exact: I'|].
  by move=> a _; rewrite /pot /=; move: L; rewrite E /=; move: (\sum_(i < rdim) _)%N => y; lia.
have Epr : prow j = pi%:Z by move: Ep; rewrite E.
rewrite Epr; have -> : (pi%:Z == -1) = false by lia.
rewrite absz_nat.
have := @step_coll st j pi _ _ j%:Z I L Q Hpi Epi; cbv zeta; rewrite E /=.
rewrite -[v]/(v) /v E /=.
set sw := (pdeg _ < pdeg _); set M := if sw then _ else _; set TT := omap _ _.
case Ea: (atomic_solve_pivot_collision n cT M TT _ _ j) => [[A' T']|].
  move=> /(_ _ _ erefl) [I' D]; eexists; split; [reflexivity|exact: I'|].
  by move=> a Ha; exact: D.
exfalso; move: Ea; rewrite /atomic_solve_pivot_collision.
have Q2 : fpiv up cdim s (A (rstart + pi)%N) j.
  by have [j' [E' Q' _]] := i_piv I Hpi; move: E'; rewrite Epi => -[Ej]; move: Q'; rewrite -Ej E.
have Q1 : fpiv up cdim s (A (rstart + rk)%N) j by move: Q; rewrite /v E.
have [_ N1 _ _] := Q1; have [_ N2 _ _] := Q2.
rewrite ifF //; rewrite -size_poly_gt0 in N1; rewrite -size_poly_gt0 in N2.
have Npi : (pi == rk) = false by move: Hpi; rewrite E /=; lia.
have [M1 M2] : M (rstart + rk)%N j = (if sw then A (rstart + pi)%N j else A (rstart + rk)%N j) /\
               M (rstart + pi)%N j = (if sw then A (rstart + rk)%N j else A (rstart + pi)%N j).
  rewrite /M; case: (sw) => //; rewrite !swap_rowsE !eqn_add2l !eqxx.
  by rewrite eq_sym Npi.
rewrite M1 M2; have : sw = (pdeg (A (rstart + rk)%N j) < pdeg (A (rstart + pi)%N j)) by [].
rewrite /pdeg; move: N1 N2; clear; case: sw; move: (size _) (size _) => a b; lia.
Qed.

Lemma loopP fuel st a : (forall j, (j < cdim)%N -> a <= s j) -> inv st -> (pot a st <= fuel)%N ->
  (wp_loop n cT shift rstart 0 rdim cdim early o fuel st = Some AUB /\ bad) \/
  exists st', [/\ wp_loop n cT shift rstart 0 rdim cdim early o fuel st = Some (AOk st'), inv st' &
    ~~ ((wp_rk st' + wp_zr st' < rdim)%N && (wp_zr st' < early)%N)].
Proof.
move=> Ha; elim: fuel st => [|fuel IH] st I Hp /=; case: ifP => C; try by right; exists st; rewrite C.
  exfalso; move: Hp; rewrite /pot; move: (\sum_(i < rdim) _)%N => y; lia.
case/andP: C => C _; have [[-> B]|[st' [-> I' D]]] := stepP I C; first by left.
by apply: IH => //; have := D a Ha; lia.
Qed.

Lemma inv0 : inv (WP A0 T0 det0 pivind0 rrp0 (fun _ => -1) 0 0).
Proof.
split=> //=.
- exists false; exists 1%:M; first by rewrite det1.
  split; [exact: lmul1| |].
    by case: T0 => //= B; exact: lmul1.
  by case: det0 => //= d; rewrite expr0 mul1r.
- by split=> //; case: T0.
- by move=> j Hj; left.
- by move=> i; lia.
- by move=> i j _ _; rewrite addn0.
- case: rrp0 => //= r; split=> //; first by move=> k k'; rewrite ltn0 andbF.
  move=> i; rewrite leqn0 => /eqP ->.
  by rewrite big_ord0; apply/eqP; rewrite -leqn0 rank_leq_row.
Qed.
End Loop.
