(** Generic lemmas for the word layer. *)
From Coq Require Import ZArith List Bool Lia.
From Verif Require Import W_word SpecW.
Local Open Scope Z_scope.

Lemma B64_eq : B64 = 18446744073709551616. Proof. reflexivity. Qed.
Lemma B64_pos : 0 < B64. Proof. reflexivity. Qed.
Global Opaque B64.

Definition word (x : Z) : Prop := 0 <= x < B64.

Lemma w64_word x : word (w64 x).
Proof. apply Z.mod_pos_bound, B64_pos. Qed.

Lemma w64_small x : word x -> w64 x = x.
Proof. apply Z.mod_small. Qed.

Lemma while_inv {S : Type} (P : S -> Prop) (m : S -> nat) c b :
  (forall s, P s -> c s = true -> P (b s) /\ (m (b s) < m s)%nat) ->
  forall fuel s, P s -> (m s <= fuel)%nat ->
  exists s', while fuel c b s = Some s' /\ P s' /\ c s' = false.
Proof.
  intros H fuel; induction fuel as [|f IH]; intros s Ps Hm; simpl.
  - destruct (c s) eqn:E.
    + destruct (H s Ps E); lia.
    + eauto.
  - destruct (c s) eqn:E.
    + destruct (H s Ps E) as [Pb Hb]. apply IH; [assumption|lia].
    + eauto.
Qed.

Lemma for_up_ind {S : Type} (P : nat -> S -> Prop) (b : nat -> S -> S) :
  forall n lo s, P lo s ->
  (forall i s, (lo <= i < lo + n)%nat -> P i s -> P (Datatypes.S i) (b i s)) ->
  P (lo + n)%nat (for_up lo n b s).
Proof.
  induction n as [|n IH]; intros lo s Hs H; simpl.
  - rewrite Nat.add_0_r; assumption.
  - rewrite <- plus_n_Sm. apply (IH (Datatypes.S lo)).
    + apply H; [lia|assumption].
    + intros i s' Hi; apply H; lia.
Qed.

Lemma zsum_S f k : zsum f (S k) = zsum f k + f k. Proof. reflexivity. Qed.

Lemma zsum_add f a b : zsum f (a + b) = zsum f a + zsum (fun i => f (a + i)%nat) b.
Proof.
  induction b as [|b IH]; [rewrite Nat.add_0_r; simpl; lia|].
  rewrite <- plus_n_Sm; simpl; rewrite IH; lia.
Qed.

Lemma zsum_ext f g len : (forall i, (i < len)%nat -> f i = g i) -> zsum f len = zsum g len.
Proof.
  induction len as [|k IH]; intros H; simpl; [reflexivity|].
  rewrite IH, (H k); [reflexivity|lia|intros; apply H; lia].
Qed.

Lemma zsum_bounds f M len :
  (forall i, (i < len)%nat -> 0 <= f i <= M) -> 0 <= zsum f len <= Z.of_nat len * M.
Proof.
  induction len as [|k IH]; intros H; simpl zsum; [lia|].
  assert (Hk := H k ltac:(lia)). assert (IHk := IH ltac:(intros; apply H; lia)).
  rewrite Nat2Z.inj_succ. lia.
Qed.

(** difference of two partial sums *)
Lemma zsum_diff f M i j len :
  (forall i, (i < len)%nat -> 0 <= f i <= M) -> (i <= j <= len)%nat ->
  0 <= zsum f j - zsum f i <= (Z.of_nat j - Z.of_nat i) * M.
Proof.
  intros H Hij. replace j with (i + (j - i))%nat by lia.
  rewrite zsum_add.
  pose proof (zsum_bounds (fun k => f (i + k)%nat) M (j - i)
                ltac:(intros; apply H; lia)).
  replace (Z.of_nat (i + (j - i)) - Z.of_nat i) with (Z.of_nat (j - i)) by lia. lia.
Qed.

Lemma zsum_mod f n len :
  zsum f len mod n = zsum (fun i => f i mod n) len mod n.
Proof.
  induction len as [|k IH]; simpl; [reflexivity|].
  rewrite Zplus_mod, IH, <- Zplus_mod, (Zplus_mod _ (f k mod n)), Zmod_mod, <- Zplus_mod.
  reflexivity.
Qed.

Lemma zsum_scal f a len : zsum (fun i => a * f i) len = a * zsum f len.
Proof. induction len as [|k IH]; simpl; [lia|rewrite IH; ring]. Qed.

Lemma zsum_plus f g len : zsum (fun i => f i + g i) len = zsum f len + zsum g len.
Proof. induction len as [|k IH]; simpl; [lia|rewrite IH; ring]. Qed.

Lemma zsum_const c len : zsum (fun _ => c) len = Z.of_nat len * c.
Proof. induction len as [|k IH]; simpl zsum; [lia|rewrite IH; lia]. Qed.

Lemma zsum_0 len : zsum (fun _ => 0) len = 0.
Proof. rewrite zsum_const; lia. Qed.

Lemma zsum_swap (f : nat -> nat -> Z) a b :
  zsum (fun i => zsum (fun j => f i j) b) a = zsum (fun j => zsum (fun i => f i j) a) b.
Proof.
  induction a as [|a IH]; simpl; [rewrite zsum_0; reflexivity|].
  rewrite IH, <- zsum_plus; reflexivity.
Qed.

Definition val2 (u : Z * Z) : Z := fst u * B64 + snd u.
Definition val3 (t : Z * Z * Z) : Z :=
  fst (fst t) * (B64 * B64) + snd (fst t) * B64 + snd t.
Definition words2 (u : Z * Z) : Prop := word (fst u) /\ word (snd u).
Definition words3 (t : Z * Z * Z) : Prop :=
  word (fst (fst t)) /\ word (snd (fst t)) /\ word (snd t).

Lemma val2_bound u : words2 u -> 0 <= val2 u < B64 * B64.
Proof. unfold words2, val2, word. pose proof B64_pos. destruct u as [a b]; simpl. nia. Qed.

Lemma val3_bound t : words3 t -> 0 <= val3 t < B64 * B64 * B64.
Proof.
  unfold words3, val3, word. pose proof B64_pos. destruct t as [[a b] c]; simpl.
  intros [Ha [Hb Hc]].
  assert (0 <= b * B64 + c < B64 * B64) by nia.
  assert (0 < B64 * B64) by nia. nia.
Qed.

Lemma umul_val x y : val2 (umul_ppmm x y) = x * y.
Proof.
  unfold val2, umul_ppmm, w64; simpl. rewrite Z.mul_comm.
  symmetry. apply Z.div_mod. pose proof B64_pos; lia.
Qed.

Lemma umul_words x y : word x -> word y -> words2 (umul_ppmm x y).
Proof.
  intros Hx Hy; split; simpl; [|apply w64_word].
  pose proof B64_pos. unfold word in *. split.
  - apply Z.div_pos; nia.
  - apply Z.div_lt_upper_bound; nia.
Qed.

Lemma add2_words ah al bh bl : words2 (add_ssaaaa ah al bh bl).
Proof. split; apply w64_word. Qed.

Lemma add2_val ah al bh bl :
  0 <= val2 (ah, al) + val2 (bh, bl) < B64 * B64 ->
  val2 (add_ssaaaa ah al bh bl) = val2 (ah, al) + val2 (bh, bl).
Proof.
  unfold val2, add_ssaaaa, w64; simpl. pose proof B64_pos as HB. intros H.
  pose proof (Z.div_mod (al + bl) B64 ltac:(lia)) as E.
  pose proof (Z.mod_pos_bound (al + bl) B64 HB) as Hm.
  set (c := (al + bl) / B64) in *. set (r := (al + bl) mod B64) in *.
  rewrite (Z.mod_small (ah + bh + c)); [nia|]. nia.
Qed.

Lemma add3_words ah am al bh bm bl : words3 (add_sssaaaaaa ah am al bh bm bl).
Proof. repeat split; apply w64_word. Qed.

Lemma add3_val ah am al bh bm bl :
  0 <= val3 (ah, am, al) + val3 (bh, bm, bl) < B64 * B64 * B64 ->
  val3 (add_sssaaaaaa ah am al bh bm bl) = val3 (ah, am, al) + val3 (bh, bm, bl).
Proof.
  unfold val3, add_sssaaaaaa, w64; simpl. pose proof B64_pos as HB. intros H.
  pose proof (Z.div_mod (al + bl) B64 ltac:(lia)) as E.
  pose proof (Z.mod_pos_bound (al + bl) B64 HB) as Hm.
  set (c := (al + bl) / B64) in *. set (r := (al + bl) mod B64) in *.
  pose proof (Z.div_mod (am + bm + c) B64 ltac:(lia)) as E2.
  pose proof (Z.mod_pos_bound (am + bm + c) B64 HB) as Hm2.
  set (c2 := (am + bm + c) / B64) in *. set (r2 := (am + bm + c) mod B64) in *.
  assert (Ht : ah * (B64 * B64) + am * B64 + al + (bh * (B64 * B64) + bm * B64 + bl)
               = (ah + bh + c2) * (B64 * B64) + (r2 * B64 + r)) by nia.
  rewrite Ht in *. assert (0 <= r2 * B64 + r < B64 * B64) by nia.
  assert (0 < B64 * B64) by nia.
  rewrite (Z.mod_small (ah + bh + c2)); [nia|]. nia.
Qed.

(** pointwise loops over an array *)
Lemma for_up_upd {A : Type} (g : nat -> A -> A) k (a : nat -> A) :
  forall j, for_up 0 k (fun j a => upd a j (g j (a j))) a j
            = if Nat.ltb j k then g j (a j) else a j.
Proof.
  pose proof (for_up_ind (fun i (b : nat -> A) =>
     forall j, b j = if Nat.ltb j i then g j (a j) else a j)
     (fun j a => upd a j (g j (a j))) k 0 a) as H.
  apply H; clear H.
  - intros j. reflexivity.
  - intros i b _ Hb j. unfold upd.
    destruct (Nat.eqb_spec j i) as [->|Hj].
    + rewrite Hb. rewrite (proj2 (Nat.ltb_ge i i)) by lia.
      rewrite (proj2 (Nat.ltb_lt i (S i))) by lia. reflexivity.
    + rewrite Hb. destruct (Nat.ltb_spec j i), (Nat.ltb_spec j (S i)); try reflexivity; lia.
Qed.
