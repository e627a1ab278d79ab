(** Integer geometry in a square: circumradii of triangles with corners on a grid are either equal or well separated. *)
From Coq Require Import ZArith Lia Reals Lra.
Open Scope Z_scope.

(** twice the area of a triangle in a square of side W is at most W^2 *)
Lemma box_area W xa ya xb yb xc yc :
  0 <= xa <= W -> 0 <= ya <= W -> 0 <= xb <= W -> 0 <= yb <= W -> 0 <= xc <= W -> 0 <= yc <= W ->
  Z.abs ((xb - xa) * (yc - ya) - (yb - ya) * (xc - xa)) <= W * W.
Proof.
  intros Hxa Hya Hxb Hyb Hxc Hyc.
  replace ((xb - xa) * (yc - ya) - (yb - ya) * (xc - xa)) with (xa * (yb - yc) + xb * (yc - ya) + xc * (ya - yb)) by ring.
  assert (G : forall p q r x y z, 0 <= x <= W -> 0 <= y <= W -> 0 <= z <= W -> 0 <= p <= q -> q <= r <= W ->
    Z.abs (x * (q - r) + y * (r - p) + z * (p - q)) <= W * W).
  { intros p q r x y z Hx Hy Hz Hp Hq.
    assert (0 <= x * (r - q) <= W * (r - q)) by (split; [apply Z.mul_nonneg_nonneg|apply Z.mul_le_mono_nonneg_r]; lia).
    assert (0 <= z * (q - p) <= W * (q - p)) by (split; [apply Z.mul_nonneg_nonneg|apply Z.mul_le_mono_nonneg_r]; lia).
    assert (0 <= y * (r - p) <= W * (r - p)) by (split; [apply Z.mul_nonneg_nonneg|apply Z.mul_le_mono_nonneg_r]; lia).
    assert (W * (r - p) <= W * W) by (apply Z.mul_le_mono_nonneg_l; lia). lia. }
  destruct (Z.le_ge_cases ya yb) as [A|A], (Z.le_ge_cases yb yc) as [B|B], (Z.le_ge_cases ya yc) as [C|C].
  - pose proof (G ya yb yc xa xb xc). lia.
  - pose proof (G ya yb yc xa xb xc). lia.
  - pose proof (G ya yc yb xa xc xb). lia.
  - pose proof (G yc ya yb xc xa xb). lia.
  - pose proof (G yb ya yc xb xa xc). lia.
  - pose proof (G yb yc ya xb xc xa). lia.
  - pose proof (G yc yb ya xc xb xa). lia.
  - pose proof (G yc yb ya xc xb xa). lia.
Qed.

(** cotangents N/d of angles over one base: different ones are well separated *)
Lemma cot_gap N2 d2 Nq dq : 0 <= N2 <= 2 ^ 18 -> 0 <= Nq -> 0 < d2 <= 2 ^ 16 -> 0 < dq <= 2 ^ 16 ->
  (Nq * Nq + dq * dq) * (d2 * d2) < (N2 * N2 + d2 * d2) * (dq * dq) ->
  2 ^ 49 * ((Nq * Nq + dq * dq) * (d2 * d2)) <= (2 ^ 49 - 1) * ((N2 * N2 + d2 * d2) * (dq * dq)).
Proof.
  intros HN2 HNq Hd2 Hdq H. set (p := N2 * dq). set (q := Nq * d2).
  assert (P : q * q < p * p) by (unfold p, q; lia).
  assert (P0 : 0 <= p) by (unfold p; apply Z.mul_nonneg_nonneg; lia).
  assert (Q0 : 0 <= q) by (unfold q; apply Z.mul_nonneg_nonneg; lia).
  assert (PQ : q < p) by (apply Z.square_lt_simpl_nonneg; auto).
  assert (N21 : 1 <= N2). { destruct (Z.eq_dec N2 0) as [E|]; [|lia]. unfold p in PQ. rewrite E in PQ. lia. }
  assert (K : p <= p * p - q * q).
  { assert (q * q <= (p - 1) * (p - 1)) by (apply Z.mul_le_mono_nonneg; lia). lia. }
  assert (M : (N2 * N2 + d2 * d2) * dq <= 2 ^ 49 * N2).
  { assert (N2 * N2 * dq <= 2 ^ 34 * N2).
    { replace (N2 * N2 * dq) with (N2 * dq * N2) by ring. apply Z.mul_le_mono_nonneg_r; [lia|].
      replace (2 ^ 34) with (2 ^ 18 * 2 ^ 16) by reflexivity. apply Z.mul_le_mono_nonneg; lia. }
    assert (d2 * d2 * dq <= 2 ^ 48).
    { replace (2 ^ 48) with (2 ^ 16 * 2 ^ 16 * 2 ^ 16) by reflexivity. apply Z.mul_le_mono_nonneg; try lia.
      apply Z.mul_le_mono_nonneg; lia. }
    lia. }
  assert (M2 : (N2 * N2 + d2 * d2) * (dq * dq) <= 2 ^ 49 * p).
  { unfold p. replace ((N2 * N2 + d2 * d2) * (dq * dq)) with ((N2 * N2 + d2 * d2) * dq * dq) by ring.
    rewrite Z.mul_assoc. apply Z.mul_le_mono_nonneg_r; lia. }
  assert (E : (N2 * N2 + d2 * d2) * (dq * dq) - (Nq * Nq + dq * dq) * (d2 * d2) = p * p - q * q) by (unfold p, q; ring).
  lia.
Qed.
