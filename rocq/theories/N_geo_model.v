(** Model of ntl-extras/lzz_pX_CRT/src/lzz_pX_Multipoint_Geometric.cpp: evaluation and interpolation at
    points in geometric progression. A polynomial filled by SetCoeff is modelled by its array of
    coefficients; AUB is an error raised by NTL or an access out of bounds; None means that
    [fuel] is too small for the middle product or a loop. *)
From mathcomp Require Import all_ssreflect all_algebra.
From Verif Require Import A_base A_mul_model N_poly_model N_mid_model.
Set Implicit Arguments.
Unset Strict Implicit.
Unset Printing Implicit Defensive.
Import GRing.Theory.
Local Open Scope ring_scope.

Section Geo.
Variable F : fieldType.
Local Notation P := {poly F}.
Local Notation arr := (nat -> F).

(** the fields of the class, lzz_pX_CRT.h:368-373 and 160-164; known_degrees associates to a degree
    the pair (k, transform) *)
Record geo := Geo {
  g_n : nat; g_pts : option arr; g_idx : nat; g_feas : bool; g_fe : bool; g_fi : bool;
  g_x : arr; g_xs : arr; g_w : arr; g_ws : arr; g_y : arr; g_z : arr; g_zs : arr;
  g_f : P; g_g1 : P; g_g2 : P; g_known : seq (nat * (nat * P)); g_g1f : P; g_g2f : P }.

Definition set_flags (o : geo) (fe fi : bool) (known : seq (nat * (nat * P))) (g1f g2f : P) : geo :=
  Geo (g_n o) (g_pts o) (g_idx o) (g_feas o) fe fi (g_x o) (g_xs o) (g_w o) (g_ws o) (g_y o) (g_z o) (g_zs o)
      (g_f o) (g_g1 o) (g_g2 o) known g1f g2f.

(** lzz_pX_Multipoint_Geometric.cpp:67-81, prepare_degree; std::map::insert keeps an existing entry *)
Definition prepare_degree (o : geo) (d : nat) : aoutcome geo :=
  if (g_n o <= d)%N then AUB
  else if g_feas o then
    let k := next_pow2 (d + g_n o) in
    let known := if d \in [seq e.1 | e <- g_known o] then g_known o
                 else (d, (k, tofft k (g_f o) 0 (d + g_n o - 1))) :: g_known o in
    AOk (set_flags o (g_fe o) (g_fi o) known (g_g1f o) (g_g2f o))
  else AOk o.

(** lzz_pX_Multipoint_Geometric.cpp:122-129: the coefficients of f *)
Definition geo_f (r : F) (d : nat) : arr :=
  (foldl (fun (st : arr * F) i => let: (f, tmp) := st in
      (upd f i (f i.-1 * tmp), tmp * (r * r))) (upd (fun _ => 0) 0%N 1, r) (iota 1 (2 * d - 2))).1.

(** lzz_pX_Multipoint_Geometric.cpp:131-144: x and xs *)
Definition geo_x (r s : F) (d : nat) : arr * arr :=
  let inv_r := r^-1 in
  let inv_q := inv_r * inv_r in
  let: (x, xs, _, _) := foldl (fun (st : arr * arr * F * F) i => let: (x, xs, tmp, pow_s) := st in
      let x := upd x i (x i.-1 * tmp) in
      let xs := upd xs i (x i * pow_s) in
      (x, xs, tmp * inv_q, pow_s * s))
    (upd (fun _ => 0) 0%N 1, upd (fun _ => 0) 0%N 1, inv_r, s) (iota 1 (d - 1)) in
  (x, xs).

(** lzz_pX_Multipoint_Geometric.cpp:171-178: diff and prod_diff *)
Definition geo_diff (q : F) (d : nat) : arr * arr :=
  let: (diff, prod_diff, _) := foldl (fun (st : arr * arr * F) i => let: (diff, pd, qk) := st in
      let diff := upd diff i (qk - 1) in
      (diff, upd pd i (diff i * pd i.-1), qk * q))
    (upd (fun _ => 0) 0%N 1, upd (fun _ => 0) 0%N 1, q) (iota 1 (d - 1)) in
  (diff, prod_diff).

(** lzz_pX_Multipoint_Geometric.cpp:180-186: simultaneous inversion; the entries 1..d-1 of inv_diff are
    written before they are read *)
Definition geo_inv_diff (diff prod_diff : arr) (d : nat) : arr :=
  let: (inv_diff, tmp) := foldl (fun (st : arr * F) i => let: (inv_diff, tmp) := st in
      (upd inv_diff i (prod_diff i.-1 * tmp), tmp * diff i))
    (diff, (prod_diff d.-1)^-1) (rev (iota 1 (d - 1))) in
  upd inv_diff 0%N tmp.

(** lzz_pX_Multipoint_Geometric.cpp:146-157, 189-226: the sequences w, ws, y, z, zs and the coefficients
    of g1, g2 *)
Record geo_seqs := GeoSeqs { q_w : arr; q_ws : arr; q_y : arr; q_z : arr; q_zs : arr; q_g1 : arr; q_g2 : arr }.

Definition geo_seq (q s : F) (prod_diff inv_diff : arr) (d : nat) : geo_seqs :=
  let one := upd (fun _ => 0) 0%N 1 : arr in
  let inv_q := q^-1 in
  let invs := s^-1 in
  let: (st, _, _, _, _, _) := foldl (fun (st : geo_seqs * F * F * F * F * F) i =>
      let: (a, qk, inv_qk, qq, t, pow_invs) := st in
      let qq := qq * qk in
      let t := t * inv_qk in
      let w := upd (q_w a) i (q_w a i.-1 * inv_diff i) in
      let ws := upd (q_ws a) i (w i * pow_invs) in
      let tmp := qq * w i in
      let g2 := upd (q_g2 a) i tmp in
      let b := odd i in
      let g1 := upd (q_g1 a) i (if b then - tmp else tmp) in
      let y := upd (q_y a) i (if b then - prod_diff i else prod_diff i) in
      let z := upd (q_z a) i (if b then - w i else w i) in
      let zs := upd (q_zs a) i (if b then - ws i else ws i) in
      let y := upd y i (y i * t) in
      (GeoSeqs w ws y z zs g1 g2, qk * q, inv_qk * inv_q, qq, t, pow_invs * invs))
    (GeoSeqs one one one one one one one, 1, 1, 1, 1, invs) (iota 1 (d - 1)) in
  st.

(** lzz_pX_Multipoint_Geometric.cpp:95-237, constructor. [feas] is the test of lines 111-114 (false for
    an FFT prime of low order), [fft] the outcome of decide_FFT, lines 50-62. For d = 0 the
    vectors are empty and x[0] is out of bounds. *)
Definition geo_init (feas fft : bool) (r s : F) (d : nat) : aoutcome geo :=
  if d == 0%N then AUB
  else if (r == 0) || (s == 0) then AUB
  else
    let idx := next_pow2 (2 * d - 1) in
    let pts := if d == 1%N then Some (upd (fun _ => 0) 0%N (s * r)) else None in
    let q := r * r in
    let f := \poly_(i < 2 * d - 1) geo_f r d i in
    let: (x, xs) := geo_x r s d in
    let: (diff, prod_diff) := geo_diff q d in
    if prod_diff d.-1 == 0 then AUB
    else
      let inv_diff := geo_inv_diff diff prod_diff d in
      let a := geo_seq q s prod_diff inv_diff d in
      let g1 := \poly_(i < d) q_g1 a i in
      let g2 := \poly_(i < d) q_g2 a i in
      let o := Geo d pts idx feas fft fft x xs (q_w a) (q_ws a) (q_y a) (q_z a) (q_zs a) f g1 g2 [::] 0 0 in
      if feas then
        match prepare_degree o d.-1 with
        | AUB => AUB
        | AOk o => AOk (set_flags o (g_fe o) (g_fi o) (g_known o) (cyc idx g1) (cyc idx g2))
        end
      else AOk o.

(** the calls that modify an object after its construction: prepare_degree, and set_FFT_evaluate,
    unset_FFT_evaluate, set_FFT_interpolate, unset_FFT_interpolate, decide_FFT (lines 25-62), which set the flags *)
Inductive geo_op := Prepare (d : nat) | Flags (fe fi : bool).
Definition geo_run (o : geo) (op : geo_op) : aoutcome geo :=
  match op with
  | Prepare d => prepare_degree o d
  | Flags fe fi => AOk (set_flags o fe fi (g_known o) (g_g1f o) (g_g2f o))
  end.
Fixpoint geo_runs (o : geo) (ops : seq geo_op) : aoutcome geo :=
  if ops is op :: ops' then
    match geo_run o op with AOk o' => geo_runs o' ops' | AUB => AUB end
  else AOk o.

(** lzz_pX_Multipoint_Geometric.cpp:242-250 and 255-261 *)
Definition get_q (o : geo) : F := if g_n o == 1%N then 1 else (g_x o 1%N * g_x o 1%N)^-1.
Definition get_s (o : geo) : F := if g_n o == 1%N then 1 else g_xs o 1%N / g_x o 1%N.

(** lines 307-314, 483-488: the smallest key at least m among the known degrees, starting from n - 1 *)
Definition find_degree (o : geo) (m : nat) : nat :=
  foldl (fun best (e : nat * (nat * P)) => if (m <= e.1)%N && (e.1 < best)%N then e.1 else best) (g_n o).-1 (g_known o).

(** known_degrees.find(d)->second; dereferencing end() when there is no such entry *)
Fixpoint lookup (l : seq (nat * (nat * P))) (d : nat) : aoutcome (nat * P) :=
  if l is e :: l' then (if e.1 == d then AOk e.2 else lookup l' d) else AUB.

Variables (fuel MX KARX : nat) (ul : bool) (garb : arr).

(** lines 322-337 (and 480-501, 608-623, 723-737): the product of a, of degree at most dA, by f,
    coefficients dA .. dA + m - 1; [d] is the degree looked up, [m'] the number of
    coefficients asked from the FFT *)
Definition geo_mid (o : geo) (a : P) (dA m d m' : nat) : option (aoutcome P) :=
  if g_feas o && g_fe o then
    Some (match lookup (g_known o) d with
          | AUB => AUB
          | AOk (k, ff) => AOk (fromfft (fftmul k (tofft k a 0 dA) ff) dA (dA + m' - 1))
          end)
  else omap (fun b => AOk b) (middle_product fuel MX KARX ul garb a (g_f o) dA m.-1).

(** lzz_pX_Multipoint_Geometric.cpp:273-343, evaluate *)
Definition geo_evaluate (o : geo) (p : P) : option (aoutcome arr) :=
  let n := g_n o in
  if (n < size p)%N then Some AUB
  else if n == 0%N then Some (AOk (fun _ => 0))
  else if n == 1%N then Some (AOk (fun _ => p`_0))
  else if p == 0 then Some (AOk (fun _ => 0))
  else
    let dp := (size p).-1 in
    let dp := if g_feas o && g_fe o then find_degree o dp else dp in
    let a := foldl (fun (a : arr) i => upd a (dp - i)%N (g_xs o i * p`_i)) (fun _ => 0) (iota 0 dp.+1) in
    omap (fun b => match b with
                   | AUB => AUB
                   | AOk b => AOk (fun i => g_x o i * (b : P)`_i)
                   end)
      (geo_mid o (\poly_(i < dp.+1) a i) dp n dp n).

(** evaluate when val is P.rep itself: val.SetLength(n) gives P.rep the length n and, beyond the former
    length, the values [stale] left in memory by earlier uses of the vector (NTL's SetLength does not
    clear them); coeff(P, i) then reads them. When n >= 2 and the FFT is off, or P = 0, only
    the former length is read. *)
Definition geo_evaluate_alias (o : geo) (p : P) (stale : arr) : option (aoutcome arr) :=
  let n := g_n o in
  let c i := if (i < size p)%N then p`_i else stale i in
  if (n < size p)%N then Some AUB
  else if n == 0%N then Some (AOk (fun _ => 0))
  else if n == 1%N then Some (AOk (fun _ => c 0%N))
  else if p == 0 then Some (AOk (fun _ => 0))
  else
    let dp := (size p).-1 in
    let dp := if g_feas o && g_fe o then find_degree o dp else dp in
    let a := foldl (fun (a : arr) i => upd a (dp - i)%N (g_xs o i * c i)) (fun _ => 0) (iota 0 dp.+1) in
    omap (fun b => match b with
                   | AUB => AUB
                   | AOk b => AOk (fun i => g_x o i * (b : P)`_i)
                   end)
      (geo_mid o (\poly_(i < dp.+1) a i) dp n dp n).

(** lzz_pX_Multipoint_Geometric.cpp:587-629, mul_right *)
Definition geo_mul_right (o : geo) (p : arr) : option (aoutcome arr) :=
  let n := g_n o in
  if n == 0%N then Some (AOk (fun _ => 0))
  else if n == 1%N then Some (AOk (fun _ => p 0%N))
  else
    let a := foldl (fun (a : arr) i => upd a (n - 1 - i)%N (g_xs o i * p i)) (fun _ => 0) (iota 0 n) in
    omap (fun b => match b with
                   | AUB => AUB
                   | AOk b => AOk (fun i => g_x o i * (b : P)`_i)
                   end)
      (geo_mid o (\poly_(i < n) a i) n.-1 n n.-1 n).

(** lzz_pX_Multipoint_Geometric.cpp:456-506, t_evaluate; xs has n entries, so that output_size > n reads out of bounds *)
Definition geo_t_evaluate (o : geo) (val : arr) (osz : option nat) : option (aoutcome P) :=
  let n := g_n o in
  let m := odflt n osz in
  if m == 0%N then Some (AOk 0)
  else if n == 0%N then Some (AOk 0)
  else if n == 1%N then Some (AOk (val 0%N)%:P)
  else
    let a := foldl (fun (a : arr) i => upd a (n - 1 - i)%N (g_x o i * val i)) (fun _ => 0) (iota 0 n) in
    let d := find_degree o m.-1 in
    obind (fun b => match b with
                   | AUB => Some AUB
                   | AOk b => Some (if (n < m)%N then AUB else AOk (\poly_(i < m) (g_xs o i * (b : P)`_i)))
                   end)
      (geo_mid o (\poly_(i < n) a i) n.-1 m d d.+1).

(** lzz_pX_Multipoint_Geometric.cpp:703-742, mul_left *)
Definition geo_mul_left (o : geo) (val : arr) : option (aoutcome arr) :=
  let n := g_n o in
  if n == 0%N then Some (AOk (fun _ => 0))
  else if n == 1%N then Some (AOk (fun _ => val 0%N))
  else
    let a := foldl (fun (a : arr) i => upd a (n - 1 - i)%N (g_x o i * val i)) (fun _ => 0) (iota 0 n) in
    omap (fun b => match b with
                   | AUB => AUB
                   | AOk b => AOk (fun i => g_xs o i * (b : P)`_i)
                   end)
      (geo_mid o (\poly_(i < n) a i) n.-1 n n.-1 n).

(** lines 409-421, 428-440 (536-567, 658-689, 772-803): product truncated at n; [g] and its transform *)
Definition geo_short (o : geo) (k g gf : P) : P :=
  if g_feas o && g_fi o then fromfft (fftmul (g_idx o) (cyc (g_idx o) k) gf) 0 (g_n o - 1)
  else ptrunc (g_n o) (k * g).

(** lines 402-445 (529-572, 651-694, 765-808): the common core of interpolation, on the coefficients of k *)
Definition geo_core (o : geo) (k : arr) : P :=
  let n := g_n o in
  let h := geo_short o (\poly_(i < n) k i) (g_g1 o) (g_g1f o) in
  let k := foldl (fun (k : arr) i => upd k (n - 1 - i)%N (h`_i * g_y o i)) k (iota 0 n) in
  geo_short o (\poly_(i < n) k i) (g_g2 o) (g_g2f o).

(** lzz_pX_Multipoint_Geometric.cpp:385-448, interpolate *)
Definition geo_interpolate (o : geo) (val : arr) : P :=
  let n := g_n o in
  if n == 0%N then 0
  else if n == 1%N then (val 0%N)%:P
  else
    let h := geo_core o (fun i => val i * g_w o i) in
    \poly_(i < n) (h`_(n - 1 - i) * g_zs o i).

(** lzz_pX_Multipoint_Geometric.cpp:636-695, inv_mul_right *)
Definition geo_inv_mul_right (o : geo) (val : arr) : arr :=
  let n := g_n o in
  if n == 0%N then fun _ => 0
  else if n == 1%N then fun _ => val 0%N
  else
    let h := geo_core o (fun i => val i * g_w o i) in
    fun i => h`_(n - 1 - i) * g_zs o i.

(** lzz_pX_Multipoint_Geometric.cpp:514-573, t_interpolate *)
Definition geo_t_interpolate (o : geo) (p : P) : arr :=
  let n := g_n o in
  if n == 0%N then fun _ => 0
  else if n == 1%N then fun _ => p`_0
  else
    let h := geo_core o (fun i => p`_i * g_ws o i) in
    fun i => h`_(n - 1 - i) * g_z o i.

(** lzz_pX_Multipoint_Geometric.cpp:750-809, inv_mul_left *)
Definition geo_inv_mul_left (o : geo) (p : arr) : arr :=
  let n := g_n o in
  if n == 0%N then fun _ => 0
  else if n == 1%N then fun _ => p 0%N
  else
    let h := geo_core o (fun i => p i * g_ws o i) in
    fun i => h`_(n - 1 - i) * g_z o i.

(** lzz_pX_Multipoint_Geometric.cpp:363-376: the loop of evaluate at nb points; None when [it]
    iterations do not suffice. The polynomial f_loc is scaled in place. *)
Fixpoint geo_eval_loop (it : nat) (o : geo) (f f_loc : P) (pow : F) (val : arr) (idx nb : nat) : option (aoutcome arr) :=
  if it is it'.+1 then
    obind (fun tmp => match tmp with
      | AUB => Some AUB
      | AOk tmp =>
        let val := foldl (fun (val : arr) i => upd val (idx + i)%N (tmp i)) val (iota 0 (g_n o)) in
        let: (c, _) := foldl (fun (st : arr * F) i => let: (c, pow_loc) := st in
            (upd c i (c i * pow_loc), pow_loc * pow)) (fun i => f_loc`_i, 1) (iota 0 (size f)) in
        let idx := (idx + g_n o)%N in
        if (idx < nb)%N then geo_eval_loop it' o f (\poly_(i < size f) c i) pow val idx nb
        else Some (AOk val)
      end) (geo_evaluate o f_loc)
  else None.

(** lzz_pX_Multipoint_Geometric.cpp:350-378, evaluate at nb points: the length of the result and its entries *)
Definition geo_evaluate_nb (it : nat) (o : geo) (f : P) (nb : nat) (val : arr) : option (aoutcome (nat * arr)) :=
  if nb == 0%N then Some (AOk ((nb + g_n o)%N, val))
  else omap (fun v => match v with AUB => AUB | AOk v => AOk (nb, v) end)
         (geo_eval_loop it o f f (get_q o ^+ g_n o) val 0 nb).

(** lzz_p_extra.cpp:36-68, element_of_order with strong = true; [rnd] is the sequence of the values of random(a),
    [cord] the modulus. Over a prime field GCD(prod, p) = 1 means prod <> 0. *)
Fixpoint elt_scan (a ap prod : F) (i : nat) {struct i} : option F :=
  if i is i'.+1 then
    let prod := prod * (1 - ap) in
    if ap == 1 then None else elt_scan a (ap * a) prod i'
  else Some prod.
Fixpoint elt_try (rnd : seq F) (ord : nat) : F :=
  if rnd is a :: rnd' then
    match elt_scan a a a (ord - 1) with
    | Some prod => if prod != 0 then a else elt_try rnd' ord
    | None => elt_try rnd' ord
    end
  else 0.
Definition element_of_order (cord : nat) (rnd : seq F) (ord : nat) : aoutcome F :=
  if (cord - 1 < ord)%N then AUB else AOk (elt_try rnd ord).

(** lzz_pX_Multipoint_Geometric.cpp:816-823, get_geometric_points *)
Definition get_geometric_points (cord : nat) (rnd : seq F) (feas fft : bool) (n : nat) : aoutcome geo :=
  match element_of_order cord rnd (2 * n) with
  | AOk r => geo_init feas fft r 1 n
  | AUB => AUB
  end.
End Geo.
