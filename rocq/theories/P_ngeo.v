(** Property C61: evaluation and interpolation at points in geometric progression
    (ntl-extras/lzz_pX_CRT). *)
From mathcomp Require Import all_ssreflect all_fingroup all_algebra all_field zify.
From Verif Require Import A_base A_mul_model N_poly_model N_mid_model N_crt_proof N_crt3_proof N_multi_model N_multi_proof.
From Verif Require Import P_nmid N_geo_model N_geo_proof N_geo2_proof N_geo3_proof.
Set Implicit Arguments.
Unset Strict Implicit.
Unset Printing Implicit Defensive.
Import GRing.Theory.
Local Open Scope ring_scope.

Section C61.
Variable F : fieldType.
Local Notation P := {poly F}.
Implicit Types (r s : F) (d : nat) (o : geo F).

(** The points are s, s r^2, s r^4, .. The constructor succeeds exactly when there is at least one point and
    the points are nonzero and pairwise distinct; otherwise NTL raises an error (or, for d = 0, the
    code writes out of bounds). *)
Theorem C61_constructor feas fft r s d :
  (exists o, geo_init feas fft r s d = AOk o) <->
  [/\ (0 < d)%N, r != 0, s != 0 & forall i j, (i < d)%N -> (j < d)%N -> s * r ^+ (2 * i) = s * r ^+ (2 * j) -> i = j].
Proof.
split.
  case=> o E; have [[o' E' H]|[E' _]] := geo_initP feas fft r s d; last by rewrite E' in E.
  by split; [exact: ok_d H|exact: ok_r H|exact: ok_s H|move=> i j Hi Hj; exact: (pt_inj H)].
case=> d0 r0 s0 Inj; have [[o' E' H]|[E' H]] := geo_initP feas fft r s d; first by exists o'.
case: H => [E|E|E|[i Hi E]].
- by rewrite E in d0.
- by rewrite E eqxx in r0.
- by rewrite E eqxx in s0.
- have := Inj i 0%N; rewrite muln0 expr0 exprM E; move: Hi => /andP[H1 H2].
  by move=> /(_ H2 d0 erefl) E0; rewrite E0 in H1.
Qed.

(** [at_points r s d o]: o was built for the points s r^(2i), i < d, and then received any sequence of calls to
    prepare_degree and to the functions that set the flags *)
Definition at_points r s d o : Prop :=
  exists feas fft o0 ops, geo_init feas fft r s d = AOk o0 /\ geo_runs o0 ops = AOk o.

Lemma at_ok r s d o : at_points r s d o -> geo_ok r s d o.
Proof.
move=> [feas [fft [o0 [ops [E R]]]]].
have [[o' E' H]|[E' _]] := geo_initP feas fft r s d; last by rewrite E' in E.
by move: E'; rewrite E => -[Eo]; rewrite -Eo in H; exact: runs_ok H R.
Qed.

(** A sequence of calls succeeds when the degrees given to prepare_degree are less than the number of points. *)
Theorem C61_history feas fft r s d o0 ops : geo_init feas fft r s d = AOk o0 ->
  (exists o, geo_runs o0 ops = AOk o) <->
  all (fun op => if op is Prepare e then (e < d)%N else true) ops.
Proof.
move=> E; have : geo_ok r s d o0.
  by apply: at_ok; exists feas, fft, o0, [::].
elim: ops o0 {E} => [|[e|fe fi] ops IH] o H /=; first by split=> // _; exists o.
- have := prepare_ok e H; case: ifP => _; last by move=> ->; split=> // -[].
  by case=> o1 -> H1; apply: IH.
- by apply: IH; exact: set_flags_ok.
Qed.

Section Ops.
Variables (fuel MX KARX : nat) (ul : bool) (garb : nat -> F).
Hypothesis HK : (1 < KARX)%N.
Variables (r s : F) (d : nat) (o : geo F).
Hypothesis Ho : at_points r s d o.
Hypothesis Hfuel : (d <= fuel)%N.
Let x i : F := s * r ^+ (2 * i).
Let Ok := at_ok Ho.

Theorem C61_evaluate (p : P) :
  if (size p <= d)%N then exists v, geo_evaluate fuel MX KARX ul garb o p = Some (AOk v) /\
    forall i, (i < d)%N -> v i = p.[x i]
  else geo_evaluate fuel MX KARX ul garb o p = Some AUB.
Proof.
case: leqP => Hp; first exact: geo_evalP.
by rewrite /geo_evaluate (ok_n Ok) Hp.
Qed.

Theorem C61_interpolate (val : nat -> F) :
  (size (geo_interpolate o val) <= d)%N /\
  forall i, (i < d)%N -> (geo_interpolate o val).[x i] = val i.
Proof. exact: geo_interpP. Qed.

(** output_size is at most the number of points (its default value) *)
Theorem C61_t_evaluate (val : nat -> F) (osz : option nat) : (odflt d osz <= d)%N ->
  geo_t_evaluate fuel MX KARX ul garb o val osz =
  Some (AOk (\poly_(j < odflt d osz) \sum_(i < d) val i * x i ^+ j)).
Proof. by move=> Hm; have [p [-> ->]] := @geo_t_evalP F fuel MX KARX ul garb HK r s d o val osz Ok Hfuel Hm. Qed.

Theorem C61_t_interpolate (p : P) j : (j < d)%N ->
  \sum_(i < d) geo_t_interpolate o p i * x i ^+ j = p`_j.
Proof. exact: geo_t_interpP. Qed.

(** the products of a vector by the Vandermonde matrix of the points, by its transpose and by their inverses *)
Theorem C61_vector_products (v : nat -> F) :
  [/\ exists u, geo_mul_right fuel MX KARX ul garb o v = Some (AOk u) /\
        forall i, (i < d)%N -> u i = \sum_(j < d) x i ^+ j * v j,
      exists u, geo_mul_left fuel MX KARX ul garb o v = Some (AOk u) /\
        forall j, (j < d)%N -> u j = \sum_(i < d) v i * x i ^+ j,
      forall i, (i < d)%N -> \sum_(j < d) x i ^+ j * geo_inv_mul_right o v j = v i
    & forall j, (j < d)%N -> \sum_(i < d) geo_inv_mul_left o v i * x i ^+ j = v j].
Proof.
split.
- have [u [E H]] := @geo_mul_rightP F fuel MX KARX ul garb HK r s d o v Ok Hfuel; exists u; split=> // i Hi.
  by rewrite H //; apply: eq_bigr => j _; rewrite mulrC.
- exact: geo_mul_leftP.
- move=> i Hi; rewrite -[RHS](geo_inv_mul_rightP v Ok Hi).
  by apply: eq_bigr => j _; rewrite mulrC.
- by move=> j Hj; apply: geo_inv_mul_leftP Ok Hj.
Qed.

(** evaluation at any positive number nb of points of the progression, whatever the length d of the object *)
Theorem C61_evaluate_nb (it nb : nat) (p : P) (val : nat -> F) : (size p <= d)%N -> (0 < nb <= d * it)%N ->
  exists v, geo_evaluate_nb fuel MX KARX ul garb it o p nb val = Some (AOk (nb, v)) /\
    forall i, (i < nb)%N -> v i = p.[x i].
Proof.
move=> Hp /andP[n0 Hn]; rewrite /geo_evaluate_nb (_ : (nb == 0%N) = false); last by lia.
have [|||||v [E H]] := @geo_nbP F fuel MX KARX ul garb HK r s d o p it p val 0 nb Ok Hfuel Hp => //.
  by move=> j; rewrite mul0n expr0 mulr1.
by exists v; rewrite E.
Qed.

(** with no point asked, the length of the result is not 0 *)
Theorem C61_evaluate_nb_zero_refuted (it : nat) (p : P) (val : nat -> F) :
  exists l v, geo_evaluate_nb fuel MX KARX ul garb it o p 0 val = Some (AOk (l, v)) /\ l <> 0%N.
Proof.
exists d, val; rewrite /geo_evaluate_nb eqxx (ok_n Ok); split=> //.
by have := ok_d Ok; lia.
Qed.

(** the functions of the base class that use these operations *)
Definition geo_ev (p : P) : nat -> F :=
  if geo_evaluate fuel MX KARX ul garb o p is Some (AOk v) then v else fun _ => 0.

Theorem C61_vectors_and_matrices :
  [/\ forall m (f : nat -> P) junk i j, (i < m)%N -> (j < d)%N -> (size (f i) <= d)%N ->
        evaluate_vector d geo_ev m f junk j i = (f i).[x j],
      forall m t (f : fmat P) junk i k j, (i < m)%N -> (k < t)%N -> (j < d)%N -> (size (f i k) <= d)%N ->
        evaluate_matrix d geo_ev m t f junk j i k = (f i k).[x j],
      forall m (val : fmat F) junk i, (i < m)%N ->
        let f := interpolate_vector d (geo_interpolate o) m val junk i in
        (size f <= d)%N /\ forall j, (j < d)%N -> f.[x j] = val j i
    & forall m t (val : nat -> fmat F) junk i k, (i < m)%N -> (k < t)%N ->
        let f := interpolate_matrix d (geo_interpolate o) m t val junk i k in
        (size f <= d)%N /\ forall j, (j < d)%N -> f.[x j] = val j i k].
Proof.
have Hev (f : P) j : (size f <= d)%N -> (j < d)%N -> geo_ev f j = f.[x j].
  move=> Hf Hj; have [v [E H]] := @geo_evalP F fuel MX KARX ul garb HK r s d o f Ok Hfuel Hf.
  by rewrite /geo_ev E H.
have Hin val := C61_interpolate val.
split.
- by move=> m f junk i j Hi Hj Hf; rewrite evaluate_vectorE // Hev.
- by move=> m t f junk i k j Hi Hk Hj Hf; rewrite evaluate_matrixE // Hev.
- move=> m val junk i Hi /=; have [tmp [Ht ->]] := interpolate_vectorE d (geo_interpolate o) val junk Hi.
  by have [S H] := Hin tmp; split=> // j Hj; rewrite H // Ht.
- move=> m t val junk i k Hi Hk /=.
  have [tmp [Ht ->]] := interpolate_matrixE d (geo_interpolate o) val junk Hi Hk.
  by have [S H] := Hin tmp; split=> // j Hj; rewrite H // Ht.
Qed.

(** The points, the ratio and the base, for at least two points. *)
Theorem C61_points_partial i : (1 < d)%N -> (i < d)%N ->
  [/\ get_points geo_ev (g_pts o) i = x i, get_q o = r ^+ 2 & get_s o = s].
Proof.
move=> d1 Hi; rewrite (ok_pts Ok) (_ : (d == 1%N) = false); last by lia.
split=> /=.
- have S : (size ('X : P) <= d)%N by rewrite size_polyX.
  have [v [E H]] := @geo_evalP F fuel MX KARX ul garb HK r s d o 'X Ok Hfuel S.
  by rewrite /geo_ev E H // hornerX.
- rewrite /get_q (ok_n Ok) (_ : (d == 1%N) = false); last by lia.
  by rewrite (ok_x Ok) // -invfM invrK -exprD.
- rewrite /get_s (ok_n Ok) (_ : (d == 1%N) = false); last by lia.
  rewrite (ok_x Ok) // (ok_xs Ok) // muln1 !expr1.
  by rewrite mulrAC divff ?mul1r // invr_neq0 // (ok_r Ok).
Qed.

(** With one point, get_point returns s r, which is not the point s of the header unless r = 1, and get_s returns 1. *)
Theorem C61_one_point_refuted : d = 1%N -> r != 1 -> s != 1 ->
  get_points geo_ev (g_pts o) 0 <> x 0 /\ get_s o <> s.
Proof.
move=> d1 r1 s1; rewrite (ok_pts Ok) /get_s (ok_n Ok) d1 /= upd_eq /x muln0 expr0; split.
  by move/(mulfI (ok_s Ok))/eqP; apply/negP.
by move/eqP; rewrite eq_sym; apply/negP.
Qed.

(** An output_size greater than the number of points reads out of bounds, or for one point gives a wrong result. *)
Theorem C61_output_size_refuted (val : nat -> F) m : (1 < d)%N -> (d < m <= fuel)%N ->
  geo_t_evaluate fuel MX KARX ul garb o val (Some m) = Some AUB.
Proof.
move=> d1 /andP[Hm Hf]; rewrite /geo_t_evaluate (ok_n Ok) /=.
rewrite (_ : (m == 0%N) = false); last by lia.
rewrite (_ : (d == 0%N) = false); last by lia.
rewrite (_ : (d == 1%N) = false); last by lia.
rewrite /geo_mid; case: ifP => _; first by case: (lookup _ _) => [[k ff]|] //=; rewrite Hm.
by rewrite C58_middle_product_partial //=; [rewrite Hm|lia|lia].
Qed.
Theorem C61_output_size_one_refuted (val : nat -> F) : d = 1%N -> val 0%N != 0 ->
  geo_t_evaluate fuel MX KARX ul garb o val (Some 2%N) <>
  Some (AOk (\poly_(j < 2) \sum_(i < d) val i * x i ^+ j)).
Proof.
move=> d1 v0; rewrite /geo_t_evaluate (ok_n Ok) d1 /= => -[].
move/(congr1 (fun p : P => p`_1)); rewrite coefC coef_poly /= big_ord1 expr1 /x muln0 expr0 mulr1.
by move/esym/eqP; rewrite mulf_eq0 (negbTE v0) (negbTE (ok_s Ok)).
Qed.

(** The comment on evaluate allows val to alias P.rep. With the polynomial 0 stored in a vector that
    held other values, and one point, the result is not the value of 0. *)
Theorem C61_alias_refuted (stale : nat -> F) : d = 1%N -> stale 0%N != 0 ->
  exists v, geo_evaluate_alias fuel MX KARX ul garb o 0 stale = Some (AOk v) /\ v 0%N <> (0 : P).[x 0].
Proof.
move=> d1 s0; rewrite /geo_evaluate_alias (ok_n Ok) d1 size_poly0 /=.
by eexists; split; [by []|rewrite horner0; apply/eqP].
Qed.
End Ops.
End C61.
Print Assumptions C61_constructor.
Print Assumptions C61_history.
Print Assumptions C61_evaluate.
Print Assumptions C61_interpolate.
Print Assumptions C61_t_evaluate.
Print Assumptions C61_t_interpolate.
Print Assumptions C61_vector_products.
Print Assumptions C61_evaluate_nb.
Print Assumptions C61_evaluate_nb_zero_refuted.
Print Assumptions C61_vectors_and_matrices.
Print Assumptions C61_points_partial.
Print Assumptions C61_one_point_refuted.
Print Assumptions C61_output_size_refuted.
Print Assumptions C61_output_size_one_refuted.
Print Assumptions C61_alias_refuted.

(** r = 3 and s = 2 modulo 17: the points 2, 1, 9, 13 *)
Example C61_met : exists o, geo_init true true (3%:R : 'F_17) 2%:R 4 = AOk o.
Proof.
apply/C61_constructor; split=> //.
move=> i j Hi Hj /(congr1 (fun x : 'F_17 => x : nat)); rewrite -!natrX -!natrM !val_Fp_nat //.
by case: i Hi => [|[|[|[|i]]]] // _; case: j Hj => [|[|[|[|j]]]].
Qed.

