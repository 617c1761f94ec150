(** C84: verification of kernel bases, and kernel bases by one approximant basis (ntl-extras). *)
From Coq Require Import ZArith.
From mathcomp Require Import all_ssreflect all_fingroup all_algebra all_solvable all_field fraction zify.
From Verif Require Import A_base SpecA SpecForms SpecApp SpecKer A_kernel_proof A_frac_proof N_multi_model N_pmat_model N_trs_proof N_util_model N_util_proof N_poly_model N_eval_model
  N_mp_model N_mm3_model N_mm_model N_mp3_model N_forms_model P_ntrs P_nforms P_nappbas N_mb_model P_nmb N_pmb_model N_pmb_proof P_npmb N_ker_model N_ker_proof.
Set Implicit Arguments.
Unset Strict Implicit.
Unset Printing Implicit Defensive.
Import Order.TTheory GRing.Theory Num.Theory.
Local Open Scope ring_scope.

Section P.
Variable F : fieldType.
Implicit Types (pm kerbas : pmat F) (shift : seq int) (left right : nat -> F).

(** kerbas is a basis of the left kernel of pm in ordered weak Popov form for the shift; piv and t are the pivot indices and the shifted
    degrees of its rows *)
Definition kernel_out pm shift kerbas (piv : seq nat) (t : seq int) : Prop :=
  [/\ nc kerbas = nr pm, size piv = nr kerbas, size t = nr kerbas &
      minimal_kernel_basis (fun i : 'I_(nr pm) => nth 0 shift i) (\matrix_(i < nr pm, j < nc pm) ent pm i j)
        (\matrix_(i < nr kerbas, j < nr pm) ent kerbas i j) (nth 0%N piv) (nth 0 t)].

Theorem C84_via_approximation pmb x pm shift : size shift = nr pm ->
  (forall amp, amplitude shift = Ret amp -> exists a t, pmb pm (kernel_via_order pm amp) shift = Ret (a, t) /\ mb_correct pm (kernel_via_order pm amp) shift a t) ->
  returns (fun r => kernel_out pm shift r.1.1 r.1.2 r.2) (kernel_basis_via_approximation pmb x pm shift).
Proof.
move=> Ss H; have [k [piv [t [-> E1 E2 E3 M]]]] := via_approximationP x Ss H.
by exists (k, piv, t) => //; split=> //; apply/mkbP.
Qed.

Theorem C84_rank pm shift kerbas piv t : kernel_out pm shift kerbas piv t ->
  nr kerbas = (nr pm - \rank (map_mx (@FracField.tofrac [idomainType of {poly F}]) (\matrix_(i < nr pm, j < nc pm) ent pm i j)))%N.
Proof. by case=> _ _ _ [/kernel_basis_rows]. Qed.

(** the product of the left projection of kerbas, pm and the right projection *)
Definition product_at (mul : pmat F -> pmat F -> fout (pmat F)) a b : Prop :=
  exists c, [/\ mul a b = Ret c, nr c = nr a, nc c = nc b & forall i j, (i < nr a)%N -> (j < nc b)%N -> ent c i j = \sum_(k < nc a) ent a i k * ent b k j].
Definition annihilates kerbas pm : Prop :=
  (\matrix_(i < nr kerbas, j < nr pm) ent kerbas i j) *m (\matrix_(i < nr pm, j < nc pm) ent pm i j) = 0.

Theorem C84_is_kernel_basis mul kerbas pm shift f left right : product_at mul kerbas pm -> (0 < nr pm)%N -> size shift = nr pm -> f <> UNKNOWN ->
  returns (fun b : bool => b <-> [/\ nc kerbas = nr pm, has_form f (Some shift) (mat kerbas) & annihilates kerbas pm])
    (is_kernel_basis mul kerbas pm shift f false left right).
Proof.
move=> [c [Ec E1 E2 E3]] m0 Ss Nf; rewrite /is_kernel_basis; case: ifP => [N|/negbFE/eqP E].
  by exists false => //; split=> // -[E]; rewrite E eqxx in N.
have [|b Eb Hb] := @C78_is_row_form _ kerbas (Some shift) f _ Nf; first by rewrite /= Ss E; split.
rewrite /= in Eb; rewrite Eb /=; case: b Eb Hb => Eb Hb /=; last by exists false => //; split=> // -[_ /Hb].
rewrite Ec /=; eexists; first by []; rewrite /annihilates; split=> [/eqP/zero_plen Z|[_ _ Z]].
  split=> //; first exact/Hb.
  apply/matrixP=> i j; rewrite !mxE -[RHS](Z i j) ?E1 ?E2 // E3 // E; by apply: eq_bigr => k _; rewrite !mxE.
apply/eqP/zero_plen => i j; rewrite E1 E2 => Hi Hj; rewrite E3 // E.
have /matrixP/(_ (Ordinal Hi) (Ordinal Hj)) := Z; rewrite !mxE => Z'; rewrite -[RHS]Z'.
by apply: eq_bigr => k _; rewrite !mxE.
Qed.

Definition randomized_test mul kerbas pm shift f left right := is_kernel_basis mul kerbas pm shift f true left right.

Lemma randomizedE mul kerbas pm shift f left right : (0 < nr pm)%N -> size shift = nr pm -> f <> UNKNOWN ->
  returns (fun b : bool => b <-> [/\ nc kerbas = nr pm, has_form f (Some shift) (mat kerbas) &
    \sum_(i < nr pm) (\sum_(k < nr kerbas) (left k)%:P * ent kerbas k i) * (\sum_(j < nc pm) ent pm i j * (right j)%:P) = 0])
    (randomized_test mul kerbas pm shift f left right).
Proof.
move=> m0 Ss Nf; rewrite /randomized_test /is_kernel_basis; case: ifP => [N|/negbFE/eqP E].
  by exists false => //; split=> // -[E]; rewrite E eqxx in N.
have [|b Eb Hb] := @C78_is_row_form _ kerbas (Some shift) f _ Nf; first by rewrite /= Ss E; split.
rewrite /= in Eb; rewrite Eb /=; case: b Eb Hb => Eb Hb /=; last by exists false => //; split=> // -[_ /Hb].
by eexists; first by []; split=> [/eqP Z|[_ _ ->] //]; split=> //; exact/Hb.
Qed.

(** the randomized test accepts whatever the deterministic test accepts; a matrix that is not in the kernel is refused for some vectors *)
Theorem C84_randomized mul kerbas pm shift f : (0 < nr pm)%N -> size shift = nr pm -> f <> UNKNOWN ->
  nc kerbas = nr pm -> has_form f (Some shift) (mat kerbas) ->
  annihilates kerbas pm <-> forall left right, randomized_test mul kerbas pm shift f left right = Ret true.
Proof.
move=> m0 Ss Nf En Hf.
have swap left right : \sum_(i < nr pm) (\sum_(k < nr kerbas) (left k)%:P * ent kerbas k i) * (\sum_(j < nc pm) ent pm i j * (right j)%:P) =
    \sum_(k < nr kerbas) \sum_(j < nc pm) (left k)%:P * (right j)%:P * (\sum_(i < nr pm) ent kerbas k i * ent pm i j).
  under eq_bigr do rewrite big_distrl /=; rewrite exchange_big /=; apply: eq_bigr => k _.
  under eq_bigr do rewrite big_distrr /=; rewrite exchange_big /=; apply: eq_bigr => j _.
  by rewrite big_distrr /=; apply: eq_bigr => i _; rewrite [ent pm i j * _]mulrC mulrACA.
split=> [Z left right|H].
  have [b -> Hb] := randomizedE mul kerbas left right m0 Ss Nf; congr Ret; apply/Hb; split=> //; rewrite swap.
  apply: big1 => k _; apply: big1 => j _; have /matrixP/(_ k j) := Z; rewrite !mxE.
  by under eq_bigr do rewrite !mxE; move=> ->; rewrite mulr0.
apply/matrixP=> k j; rewrite !mxE; under eq_bigr do rewrite !mxE.
pose L i : F := (i == k :> nat)%:R; pose R i : F := (i == j :> nat)%:R.
have [b Eb Hb] := randomizedE mul kerbas L R m0 Ss Nf.
have bT : b by move: Eb; rewrite H => -[<-].
have [_ _] := (proj1 Hb) bT.
rewrite swap (bigD1 k) //= [X in _ + X]big1 ?addr0 => [|k' Nk]; last first.
  by apply: big1 => j' _; rewrite /L (_ : (k' == k :> nat) = false) ?mulr0n ?polyC0 ?mul0r //; apply: negbTE.
rewrite (bigD1 j) //= [X in _ + X]big1 ?addr0 => [|j' Nj]; last first.
  by rewrite /R (_ : (j' == j :> nat) = false) ?mulr0n ?polyC0 ?mulr0 ?mul0r //; apply: negbTE.
by rewrite /L /R !eqxx polyC1 !mul1r.
Qed.

(** generation is not tested: the 1 x 1 matrix X is accepted as a kernel basis of the 1 x 1 zero matrix *)
Definition one (f : {poly F}) : pmat F := Pmat 1 1 (fun _ _ => f).
Theorem C84_refuted mul shift left right randomized : product_at mul (one 'X) (one 0) -> size shift = 1%N ->
  is_kernel_basis mul (one 'X) (one 0) shift ORD_WEAK_POPOV randomized left right = Ret true /\
  ~ kernel_basis (\matrix_(i < 1, j < 1) ent (one 0) i j) (\matrix_(i < 1, j < 1) ent (one 'X) i j).
Proof.
move=> PA Ss.
have An : annihilates (one 'X) (one 0) by apply/matrixP=> i j; rewrite !mxE big1 // => k _; rewrite !mxE mulr0.
have Hf : has_form ORD_WEAK_POPOV (Some shift) (mat (one 'X)).
  exists (fun _ => 0); last by move=> i; split=> [|j _|j]; rewrite ?ord1 ?mxE ?polyX_eq0 // /before /= ltnn.
  by move=> [[|i] Hi] [[|j] Hj].
split; last first.
  case=> _ [/(_ 1)[|w]]; first by apply/matrixP=> i j; rewrite !mxE big1 // => k _; rewrite !mxE mulr0.
  move/(congr1 (fun M : 'rV[{poly F}]_1 => M 0 0)); rewrite !mxE big_ord1 !mxE /= => /(congr1 (fun q : {poly F} => q`_0)).
  by rewrite coefMX coef1 /= => /eqP; rewrite oner_eq0.
case: randomized.
  by have [H _] := @C84_randomized mul (one 'X) (one 0) shift ORD_WEAK_POPOV (isT : (0 < nr (one 0))%N) Ss (fun e : ORD_WEAK_POPOV = UNKNOWN => match e with end) erefl Hf; apply: H.
have [b -> Hb] := C84_is_kernel_basis left right PA (isT : (0 < nr (one 0))%N) Ss (fun e : ORD_WEAK_POPOV = UNKNOWN => match e with end).
by congr Ret; apply/Hb; split.
Qed.
End P.

(** *** with pmbasis (C83) and the products of the code, modulo an FFT prime *)
Section Prime.
Variables (p : nat) (fftp : bool) (maxroot_p : nat) (xp : nat -> nat -> 'F_p) (nbits_p : nat).
Variables (wbits spbits : nat) (ru : nat -> nat -> nat).
Variables (q : nat -> nat) (nbits maxroot : nat -> nat) (x3 : forall i, nat -> nat -> 'F_(q i)).
Variables (trs : nat) (wak ev nv evm : nat -> nat) (cbrt : nat -> nat).
Variables (mfuel MX KARX : nat) (ul : bool) (garb : nat -> nat -> nat -> nat -> 'F_p) (x0 : pmat [fieldType of 'F_p]).
Hypotheses (Hmm : P_nmm.setting fftp maxroot_p xp wbits spbits ru q nbits) (Hmp : P_nmp3.setting fftp maxroot_p xp q KARX).
Local Notation pmat := (pmat [fieldType of 'F_p]).
Local Notation mid := (@code_mid p fftp maxroot_p xp nbits_p q nbits maxroot x3 nv evm cbrt mfuel MX KARX ul garb).
Local Notation mul := (@code_mul p fftp maxroot_p xp nbits_p wbits spbits ru q nbits maxroot x3 trs wak ev cbrt x0).

Theorem C84_via_approximation_code ker img (x pm : pmat) shift : kernel_ok ker -> image_ok img -> size shift = nr pm ->
  (forall amp, amplitude shift = Ret amp -> @enough_roots p fftp maxroot_p q maxroot x3 mfuel (nr pm) (kernel_via_order pm amp)) ->
  returns (fun r => kernel_out pm shift r.1.1 r.1.2 r.2) (kernel_basis_via_approximation (pmbasis ker img mid mul) x pm shift).
Proof.
move=> KO IO Ss H; apply: C84_via_approximation => // amp Ea.
have m0 : (0 < nr pm)%N by rewrite -Ss; case: (shift) Ea.
have o0 : (0 < kernel_via_order pm amp)%N by rewrite /kernel_via_order addn1.
by have [] := C83_pmbasis_code nbits_p trs wak ev nv evm cbrt MX ul garb x0 Hmm Hmp KO IO (H amp Ea) Ss o0 m0.
Qed.
End Prime.

(** the hypotheses are met: the 2 x 1 matrix (1, X), whose kernel is generated by (-X, 1), with the shift (0, 1) *)
Example C84_met : let pm := Pmat 2 1 (fun i _ => if i == 0%N then 1 else 'X : {poly rat}) in
  amplitude [:: 0; 1] = Ret 1 /\ kernel_via_order pm 1 = 4%N /\ ~~ full_rank0 pm /\ (plen pm != 0%N).
Proof.
move=> pm.
have E : plen pm = 2%N by rewrite /plen /pm /= ?size_polyX ?size_poly1.
by split; [|split; [rewrite /kernel_via_order E|split; [|rewrite E]]].
Qed.
Print Assumptions C84_via_approximation.
Print Assumptions C84_rank.
Print Assumptions C84_is_kernel_basis.
Print Assumptions C84_randomized.
Print Assumptions C84_refuted.
Print Assumptions C84_via_approximation_code.
