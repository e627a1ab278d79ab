(** Arithmetic interface of the model and its instances.

    Every Go expression over float64 is transcribed with the operations of a
    record [Arith].  Instances:
    - [XR]  exact arithmetic on the reals with +Inf, -Inf, NaN (no rounding, one zero);
    - [B64] IEEE-754 binary64 with round-to-nearest-even (Flocq). *)
From Coq Require Import ZArith QArith Qreals Reals Lra Lia Bool.
From Flocq Require Import IEEE754.BinarySingleNaN.
From Flocq Require Import Core.

Record Arith := mkArith {
  F :> Type;
  fadd : F -> F -> F;          (* a + b *)
  fsub : F -> F -> F;          (* a - b *)
  fmul : F -> F -> F;          (* a * b *)
  fdiv : F -> F -> F;          (* a / b *)
  fneg : F -> F;               (* -a *)
  fabs : F -> F;               (* math.Abs *)
  fsqrt : F -> F;              (* math.Sqrt *)
  fceil : F -> F;              (* math.Ceil *)
  fmaxf : F -> F -> F;         (* math.Max *)
  fminf : F -> F -> F;         (* math.Min *)
  flt : F -> F -> bool;        (* a < b *)
  fle : F -> F -> bool;        (* a <= b *)
  feq : F -> F -> bool;        (* a == b *)
  fofZ : Z -> F;               (* float64(i) *)
  fofQ : Q -> F;               (* a floating-point constant *)
  finf : F;                    (* math.Inf(1) *)
  ftoZ : F -> Z                (* int(a): truncation; amd64 gives -2^63 when not representable *)
}.

(** ** Exact extended reals *)
Inductive xr : Type := Fin (r : R) | PInf | NInf | NaN.

Definition Rltb (a b : R) : bool := if Rlt_dec a b then true else false.
Definition Rleb (a b : R) : bool := if Rle_dec a b then true else false.
Definition Reqb (a b : R) : bool := if Req_EM_T a b then true else false.

Definition xneg (a : xr) : xr :=
  match a with Fin r => Fin (- r) | PInf => NInf | NInf => PInf | NaN => NaN end.
Definition xadd (a b : xr) : xr :=
  match a, b with
  | Fin x, Fin y => Fin (x + y)
  | NaN, _ | _, NaN => NaN
  | PInf, NInf | NInf, PInf => NaN
  | PInf, _ | _, PInf => PInf
  | NInf, _ | _, NInf => NInf
  end.
Definition xsub (a b : xr) : xr :=
  match a, b with
  | Fin x, Fin y => Fin (x - y)
  | _, _ => xadd a (xneg b)
  end.
(* an infinity of the sign of [r] times the sign [pos]; NaN when [r] is zero *)
Definition xinf_sign (r : R) (pos : bool) : xr :=
  if Reqb r 0 then NaN
  else if Bool.eqb (Rltb 0 r) pos then PInf else NInf.
Definition xmul (a b : xr) : xr :=
  match a, b with
  | Fin x, Fin y => Fin (x * y)
  | NaN, _ | _, NaN => NaN
  | Fin x, PInf | PInf, Fin x => xinf_sign x true
  | Fin x, NInf | NInf, Fin x => xinf_sign x false
  | PInf, PInf | NInf, NInf => PInf
  | PInf, NInf | NInf, PInf => NInf
  end.
(* the reals have a single zero: division by zero takes it to be +0 *)
Definition xdiv (a b : xr) : xr :=
  match a, b with
  | Fin x, Fin y => if Reqb y 0 then xinf_sign x true else Fin (x / y)
  | NaN, _ | _, NaN => NaN
  | Fin _, PInf | Fin _, NInf => Fin 0
  | PInf, Fin y => if Rleb 0 y then PInf else NInf
  | NInf, Fin y => if Rleb 0 y then NInf else PInf
  | _, _ => NaN
  end.
Definition xabs (a : xr) : xr :=
  match a with Fin r => Fin (Rabs r) | PInf | NInf => PInf | NaN => NaN end.
Definition xsqrt (a : xr) : xr :=
  match a with
  | Fin r => if Rleb 0 r then Fin (sqrt r) else NaN
  | PInf => PInf | _ => NaN
  end.
Definition xceil (a : xr) : xr :=
  match a with Fin r => Fin (IZR (Zceil r)) | _ => a end.
Definition xltb (a b : xr) : bool :=
  match a, b with
  | Fin x, Fin y => Rltb x y
  | NaN, _ | _, NaN => false
  | _, PInf => match a with PInf => false | _ => true end
  | NInf, _ => match b with NInf => false | _ => true end
  | _, _ => false
  end.
Definition xleb (a b : xr) : bool :=
  match a, b with
  | Fin x, Fin y => Rleb x y
  | NaN, _ | _, NaN => false
  | _, PInf => true
  | NInf, _ => true
  | _, _ => false
  end.
Definition xeqb (a b : xr) : bool :=
  match a, b with
  | Fin x, Fin y => Reqb x y
  | PInf, PInf | NInf, NInf => true
  | _, _ => false
  end.
(* math.Max: +Inf wins over NaN, then NaN, then the larger *)
Definition xmax (a b : xr) : xr :=
  match a, b with
  | PInf, _ | _, PInf => PInf
  | NaN, _ | _, NaN => NaN
  | _, _ => if xltb b a then a else b
  end.
Definition xmin (a b : xr) : xr :=
  match a, b with
  | NInf, _ | _, NInf => NInf
  | NaN, _ | _, NaN => NaN
  | _, _ => if xltb a b then a else b
  end.
Definition int64_indefinite : Z := - 2 ^ 63.
Definition int64_fits (z : Z) : bool := ((- 2 ^ 63 <=? z) && (z <? 2 ^ 63))%Z.
Definition xtoZ (a : xr) : Z :=
  match a with
  | Fin r => if int64_fits (Ztrunc r) then Ztrunc r else int64_indefinite
  | _ => int64_indefinite
  end.

Definition XR : Arith :=
  mkArith xr xadd xsub xmul xdiv xneg xabs xsqrt xceil xmax xmin xltb xleb xeqb
          (fun z => Fin (IZR z)) (fun q => Fin (Q2R q)) PInf xtoZ.

(** ** IEEE-754 binary64 (Flocq) *)
Notation b64 := (binary_float 53 1024).

Definition b64_prec : Prec_gt_0 53 := eq_refl.
Definition b64_pe : Prec_lt_emax 53 1024 := eq_refl.

(* checked injection of computed spec floats; never falls back on the values used *)
Definition b64_of_SF (x : SpecFloat.spec_float) : b64 :=
  match Bool.bool_dec (SpecFloat.valid_binary 53 1024 x) true with
  | left H => SF2B x H
  | right _ => B754_nan
  end.

(* the binary64 nearest to a rational (ties to even): Go rounds untyped constants once *)
Definition b64_of_Q (q : Q) : b64 :=
  match Qnum q with
  | Z0 => B754_zero false
  | Zpos m =>
      let '(mz, ez, lz) := SpecFloat.SFdiv_core_binary 53 1024 (Zpos m) 0 (Zpos (Qden q)) 0 in
      b64_of_SF (SpecFloat.binary_round_aux 53 1024 false mz ez lz)
  | Zneg m =>
      let '(mz, ez, lz) := SpecFloat.SFdiv_core_binary 53 1024 (Zpos m) 0 (Zpos (Qden q)) 0 in
      b64_of_SF (SpecFloat.binary_round_aux 53 1024 true mz ez lz)
  end.
Definition b64_of_Z (z : Z) : b64 :=
  @binary_normalize 53 1024 b64_prec b64_pe mode_NE z 0 false.

Definition b64_max (a b : b64) : b64 :=
  match a, b with
  | B754_infinity false, _ | _, B754_infinity false => B754_infinity false
  | B754_nan, _ | _, B754_nan => B754_nan
  | B754_zero s, B754_zero _ => if s then b else a
  | _, _ => if Bltb b a then a else b
  end.
Definition b64_min (a b : b64) : b64 :=
  match a, b with
  | B754_infinity true, _ | _, B754_infinity true => B754_infinity true
  | B754_nan, _ | _, B754_nan => B754_nan
  | B754_zero s, B754_zero _ => if s then a else b
  | _, _ => if Bltb a b then a else b
  end.
Definition b64_toZ (a : b64) : Z :=
  match a with
  | B754_zero _ => 0
  | B754_finite _ _ _ _ =>
      if int64_fits (Btrunc a) then Btrunc a else int64_indefinite
  | _ => int64_indefinite
  end.

Definition B64 : Arith :=
  mkArith b64
    (@Bplus 53 1024 b64_prec b64_pe mode_NE)
    (@Bminus 53 1024 b64_prec b64_pe mode_NE)
    (@Bmult 53 1024 b64_prec b64_pe mode_NE)
    (@Bdiv 53 1024 b64_prec b64_pe mode_NE)
    (@Bopp 53 1024)
    (@Babs 53 1024)
    (@Bsqrt 53 1024 b64_prec b64_pe mode_NE)
    (@Bnearbyint 53 1024 b64_pe mode_UP)
    b64_max b64_min
    (@Bltb 53 1024) (@Bleb 53 1024) (@Beqb 53 1024)
    b64_of_Z b64_of_Q (B754_infinity false) b64_toZ.

(** The bits of a binary64 value (for statements about computed values). *)
Definition sf (x : B64) : SpecFloat.spec_float := B2SF x.
(** A binary64 literal [m * 2^e]. *)
Definition b64_lit (m e : Z) : B64 :=
  @binary_normalize 53 1024 b64_prec b64_pe mode_NE m e false.

(** ** Reflection of the real comparisons *)
Lemma Rltb_true a b : Rltb a b = true <-> (a < b)%R.
Proof. unfold Rltb; destruct (Rlt_dec a b); split; intros; try easy; lra. Qed.
Lemma Rltb_false a b : Rltb a b = false <-> (b <= a)%R.
Proof. unfold Rltb; destruct (Rlt_dec a b); split; intros; try easy; lra. Qed.
Lemma Rleb_true a b : Rleb a b = true <-> (a <= b)%R.
Proof. unfold Rleb; destruct (Rle_dec a b); split; intros; try easy; lra. Qed.
Lemma Rleb_false a b : Rleb a b = false <-> (b < a)%R.
Proof. unfold Rleb; destruct (Rle_dec a b); split; intros; try easy; lra. Qed.
Lemma Reqb_true a b : Reqb a b = true <-> a = b.
Proof. unfold Reqb; destruct (Req_EM_T a b); split; intros; easy. Qed.
Lemma Reqb_false a b : Reqb a b = false <-> a <> b.
Proof. unfold Reqb; destruct (Req_EM_T a b); split; intros; easy. Qed.

Lemma Rltb_spec a b : BoolSpec (a < b)%R (b <= a)%R (Rltb a b).
Proof. unfold Rltb; destruct (Rlt_dec a b); constructor; lra. Qed.
Lemma Rleb_spec a b : BoolSpec (a <= b)%R (b < a)%R (Rleb a b).
Proof. unfold Rleb; destruct (Rle_dec a b); constructor; lra. Qed.
Lemma Reqb_spec a b : BoolSpec (a = b)%R (a <> b)%R (Reqb a b).
Proof. unfold Reqb; destruct (Req_EM_T a b); constructor; auto. Qed.

(** Reduce model operations of [XR] on finite arguments. *)
Ltac xr_cbn :=
  cbn [fadd fsub fmul fdiv fneg fabs fsqrt fceil fmaxf fminf flt fle feq fofZ fofQ finf ftoZ
       XR xadd xsub xmul xneg xabs xltb xleb xeqb F] in *.
