(** The arrays computed by the constructor for points in geometric progression. *)
From mathcomp Require Import all_ssreflect all_algebra zify.
From Verif Require Import A_base A_mul_model N_poly_model N_series_proof N_shift_proof N_geo_model N_geo_proof.
Set Implicit Arguments.
Unset Strict Implicit.
Unset Printing Implicit Defensive.
Import GRing.Theory.
Local Open Scope ring_scope.

Section Init.
Variable F : fieldType.
Local Notation P := {poly F}.
Implicit Types (r s q : F) (d i k : nat).

Lemma upd_eq (T : Type) (f : nat -> T) i v : upd f i v i = v.
Proof. by rewrite /upd eqxx. Qed.
Lemma upd_ne (T : Type) (f : nat -> T) i j v : i != j -> upd f i v j = f j.
Proof. by rewrite /upd eq_sym => /negbTE->. Qed.

Lemma iota1S k : iota 1 k.+1 = iota 1 k ++ [:: k.+1].
Proof. by rewrite -[k.+1]addn1 iotaD /= add1n addn1. Qed.

(** a loop that fills the entries 1, 2, .. of an array *)
Lemma rng_step (T : Type) (f : nat -> T) (g : nat -> T) k v :
  (forall i, (i <= k)%N -> f i = g i) -> v = g k.+1 -> forall i, (i <= k.+1)%N -> upd f k.+1 v i = g i.
Proof.
move=> H E i Hi; rewrite /upd; case: (i =P k.+1) => [->//|N]; apply: H; lia.
Qed.

Lemma geo_fE r d i : (i < 2 * d - 1)%N -> geo_f r d i = r ^+ (i * i).
Proof.
move=> Hi; rewrite /geo_f.
set st := foldl _ _ _.
have [H _] : (forall i, (i <= 2 * d - 2)%N -> st.1 i = r ^+ (i * i)) /\ st.2 = r ^+ (2 * (2 * d - 2) + 1).
  rewrite /st; elim: (2 * d - 2)%N => [|k [IH1 IH2]].
    by split=> // i'; rewrite leqn0 => /eqP->; rewrite /= upd_eq muln0.
  rewrite foldl_iotaR; move: (foldl _ _ _) IH1 IH2 => [f tmp] /= IH1 ->.
  rewrite add1n; split; last by rewrite -expr2 -exprD; congr (_ ^+ _); lia.
  apply: rng_step => //=; rewrite IH1 // -exprD; congr (_ ^+ _); lia.
apply: H; lia.
Qed.

Lemma geo_xE r s d : r != 0 ->
  (forall i, (i < d)%N -> (geo_x r s d).1 i = (r ^+ (i * i))^-1) /\
  (forall i, (i < d)%N -> (geo_x r s d).2 i = (r ^+ (i * i))^-1 * s ^+ i).
Proof.
move=> r0; rewrite /geo_x.
set st := foldl _ _ _.
have : [/\ (forall i, (i <= d - 1)%N -> st.1.1.1 i = (r ^+ (i * i))^-1),
          (forall i, (i <= d - 1)%N -> st.1.1.2 i = (r ^+ (i * i))^-1 * s ^+ i),
          st.1.2 = (r^-1) ^+ (2 * (d - 1) + 1) & st.2 = s ^+ (d - 1).+1].
  rewrite /st; elim: (d - 1)%N => [|k [IH1 IH2 IH3 IH4]].
    split=> //=.
    - by move=> i'; rewrite leqn0 => /eqP->; rewrite /= upd_eq muln0 expr0 invr1.
    - by move=> i'; rewrite leqn0 => /eqP->; rewrite /= upd_eq muln0 !expr0 invr1 mulr1.
  rewrite foldl_iotaR; move: (foldl _ _ _) IH1 IH2 IH3 IH4 => [[[x xs] tmp] ps] /= IH1 IH2 -> ->.
  rewrite add1n /=.
  have E : x k * r^-1 ^+ (2 * k + 1) = (r ^+ (k.+1 * k.+1))^-1.
    rewrite IH1 // -!exprVn -exprD; congr (_ ^+ _); lia.
  split.
  - exact: rng_step.
  - by apply: (@rng_step _ xs (fun i => (r ^+ (i * i))^-1 * s ^+ i)) => //; rewrite upd_eq E.
  - by rewrite -expr2 -exprD; congr (_ ^+ _); lia.
  - by rewrite -exprSr.
move: st => [[[x xs] tmp] ps] [/= H1 H2 _ _]; split=> i Hi; [apply: H1|apply: H2]; lia.
Qed.

Lemma geo_diffE q d :
  (forall i, (0 < i < d)%N -> (geo_diff q d).1 i = q ^+ i - 1) /\
  (forall i, (i < d)%N -> (geo_diff q d).2 i = qf q i).
Proof.
rewrite /geo_diff; set st := foldl _ _ _.
have : [/\ (forall i, (i <= d - 1)%N -> st.1.1 i = if i is 0 then 1 else q ^+ i - 1),
          (forall i, (i <= d - 1)%N -> st.1.2 i = qf q i) & st.2 = q ^+ (d - 1).+1].
  rewrite /st; elim: (d - 1)%N => [|k [IH1 IH2 IH3]].
    split=> //=; by move=> i'; rewrite leqn0 => /eqP->; rewrite upd_eq ?qf0.
  rewrite foldl_iotaR; move: (foldl _ _ _) IH1 IH2 IH3 => [[di pd] qk] /= IH1 IH2 ->.
  rewrite add1n /=; split.
  - by apply: (@rng_step _ di (fun i => if i is 0 then 1 else q ^+ i - 1)).
  - by apply: rng_step => //; rewrite upd_eq IH2 // qfS mulrC.
  - by rewrite -exprSr.
move: st => [[di pd] qk] [/= H1 H2 _]; split=> i Hi; last by apply: H2; lia.
by case: i Hi => // i Hi; rewrite H1 //; lia.
Qed.

Lemma geo_inv_diffE q d di pd : (0 < d)%N -> qf q d.-1 != 0 ->
  (forall i, (0 < i < d)%N -> di i = q ^+ i - 1) -> (forall i, (i < d)%N -> pd i = qf q i) ->
  forall i, (0 < i < d)%N -> geo_inv_diff di pd d i = (q ^+ i - 1)^-1.
Proof.
move=> d0 N Hd Hp i Hi; rewrite /geo_inv_diff Hp; last by lia.
have R : forall k (a : nat -> F) tmp, (k < d)%N -> tmp = (qf q k)^-1 -> qf q k != 0 ->
  forall i, (0 < i <= k)%N ->
  (foldl (fun (st : (nat -> F) * F) i => let: (inv_diff, tmp) := st in
      (upd inv_diff i (pd i.-1 * tmp), tmp * di i)) (a, tmp) (rev (iota 1 k))).1 i = (q ^+ i - 1)^-1.
  elim=> [|k IH] a tmp Hk Et Nk j Hj; first by lia.
  rewrite iota1S rev_cat /=.
  move: Nk Et; rewrite qfS mulf_eq0 negb_or => /andP[N1 N2] Et.
  have Nx : forall l (a' : nat -> F) t, (foldl (fun (st : (nat -> F) * F) i => let: (inv_diff, tmp) := st in
      (upd inv_diff i (pd i.-1 * tmp), tmp * di i)) (a', t) (rev (iota 1 l))).1 l.+1 = a' l.+1.
    move=> l a' t; have : (l < l.+1)%N by []; move: {2 3 4}l.+1 => l1.
    elim: l a' t => // l IHl a' t Hl.
    rewrite iota1S rev_cat /= IHl; last by lia.
    by rewrite upd_ne //; lia.
  case: (j =P k.+1) => [->|Nj].
    rewrite Nx upd_eq Hp; last by lia.
    by rewrite Et invfM mulrA divff // mul1r.
  apply: IH => //; [by lia| |by lia].
  rewrite Et Hd; last by lia.
  by rewrite invfM divfK.
have := R d.-1 di _ _ erefl N i.
rewrite (_ : (d - 1 = d.-1)%N); last by lia.
move: (foldl _ _ _) => [a t] /= H.
by rewrite upd_ne; [apply: H; lia|lia].
Qed.

Lemma geo_seqE q s d pd iv : q != 0 -> (0 < d)%N ->
  (forall i, (i < d)%N -> pd i = qf q i) ->
  (forall i, (0 < i < d)%N -> iv i = (q ^+ i - 1)^-1) ->
  let a := geo_seq q s pd iv d in
  forall i, (i < d)%N ->
  [/\ q_w a i = (qf q i)^-1, q_ws a i = (qf q i)^-1 * s^-1 ^+ i,
      q_y a i = (-1) ^+ i * qf q i / tri q i, q_z a i = (-1) ^+ i / qf q i &
      q_zs a i = (-1) ^+ i / qf q i * s^-1 ^+ i] /\
  (q_g1 a i = (-1) ^+ i * (tri q i / qf q i) /\ q_g2 a i = tri q i / qf q i).
Proof.
move=> q0 d0 Hp Hv; rewrite /geo_seq.
set st := foldl _ _ _.
pose inv (k : nat) (a : geo_seqs F) := forall i, (i <= k)%N ->
  [/\ q_w a i = (qf q i)^-1, q_ws a i = (qf q i)^-1 * s^-1 ^+ i,
      q_y a i = (-1) ^+ i * qf q i / tri q i, q_z a i = (-1) ^+ i / qf q i &
      q_zs a i = (-1) ^+ i / qf q i * s^-1 ^+ i] /\
  (q_g1 a i = (-1) ^+ i * (tri q i / qf q i) /\ q_g2 a i = tri q i / qf q i).
have : [/\ inv (d - 1)%N st.1.1.1.1.1, st.1.1.1.1.2 = q ^+ (d - 1), st.1.1.1.2 = q^-1 ^+ (d - 1),
          st.1.1.2 = tri q (d - 1) /\ st.1.2 = (tri q (d - 1))^-1 & st.2 = s^-1 ^+ (d - 1).+1].
  have : (d - 1 < d)%N by lia.
  rewrite /st; elim: (d - 1)%N => [|k IH] Hk.
    split=> //=; last by split; rewrite /tri ?expr0 ?invr1.
    move=> i; rewrite leqn0 => /eqP->; rewrite /= upd_eq /tri !qf0 !expr0.
    by rewrite !(mulr1, invr1).
  have /IH{IH} : (k < d)%N by lia.
  rewrite foldl_iotaR; move: (foldl _ _ _) => [[[[[a qk] ik] qq] t] ps] /= [H1 -> -> [-> ->] ->].
  rewrite add1n; split=> /=; last by rewrite -exprSr.
  - move=> i Hi.
    have [->|Ni] := eqVneq i k.+1; last first.
      by rewrite /= !(upd_ne _ _ (_ : k.+1 != i)) 1?eq_sym //; apply: H1; lia.
    rewrite /= !upd_eq.
    have [[-> _ _ _ _] _] := H1 k (leqnn k).
    rewrite Hp // Hv //.
    have W : (qf q k)^-1 / (q ^+ k.+1 - 1) = (qf q k.+1)^-1 by rewrite qfS invfM.
    have S : (-1) ^+ k.+1 = (if odd k.+1 then -1 else 1) :> F by rewrite -signr_odd; case: odd; rewrite ?expr1.
    have Tk : tri q k * q ^+ k = tri q k.+1 by rewrite triS.
    have Ti : (tri q k)^-1 * q^-1 ^+ k = (tri q k.+1)^-1 by rewrite exprVn -invfM Tk.
    rewrite W S Tk Ti /=.
    by case: (~~ odd k); rewrite ?mulN1r ?mul1r ?mulNr.
  - by rewrite -exprSr.
  - by rewrite -exprSr.
  - by rewrite !triS exprVn invfM.
move: st => [[[[[a qk] ik] qq] t] ps] /= [H _ _ _ _] i Hi; apply: H; lia.
Qed.
End Init.
