(** Property theorems C180: B-spline curves are no longer than their control polygons. *)
From Coq Require Import Reals Lra Lia ZArith List Bool.
From Verif Require Import Base Arith M_r3 Spec_r3 XRvec M_nurbs Spec_nurbs P_nurbs P_nurbs2 Spec_spline Spec_polylength P_spline P_spline2 P_spline3 P_polylength Props_spline.
Import ListNotations.
Open Scope R_scope.

(** a broken line through points of the curve, in the order of their parameters, is no longer than the broken line through
    the control points *)
Theorem C180_length U P n p fuel us Cs : curve_data U P n p -> (1 <= p)%Z -> multiplicity_at_most U n p p -> (Z.to_nat (n + 1 - p) <= fuel)%nat ->
  increasing us -> Forall (in_domain U n p) us ->
  Forall2 (fun u C => curvePoint fuel n p U (map fv P) (Fin u : XR) = Ok (fv C)) us Cs ->
  poly_length Cs <= poly_length (firstn (Z.to_nat (n + 1)) P).
Proof.
  intros D Hp1 HM Hf I Dm F. pose proof D as (_ & Hp & _). replace (Z.to_nat (n + 1)) with (S (Z.to_nat n)) by lia. exact (curve_length U P n p fuel D Hp1 HM Hf us Cs I Dm F).
Qed.
Print Assumptions C180_length.
(** such points exist for all parameters of the domain *)
Theorem C180_points U P n p fuel us : curve_data U P n p -> (Z.to_nat (n + 1 - p) <= fuel)%nat -> Forall (in_domain U n p) us ->
  exists Cs, Forall2 (fun u C => curvePoint fuel n p U (map fv P) (Fin u : XR) = Ok (fv C)) us Cs.
Proof.
  intros D Hf. induction us as [|u us IH]; intros Dm; [exists []; constructor|]. inversion Dm as [|? ? Du Dm']; subst. destruct (IH Dm') as (Cs & F).
  destruct (domain_span U P n p u fuel D Du Hf) as (i & Si). exists (dbpoint U P p i u :: Cs). constructor; [exact (curve_at U P n p u fuel i D Hf Si)|exact F].
Qed.
Print Assumptions C180_points.
(** in particular any two points of the curve are no further apart than the control polygon is long *)
Theorem C180_chord U P n p fuel u v A B : curve_data U P n p -> (1 <= p)%Z -> multiplicity_at_most U n p p -> (Z.to_nat (n + 1 - p) <= fuel)%nat ->
  in_domain U n p u -> in_domain U n p v -> u <= v ->
  curvePoint fuel n p U (map fv P) (Fin u : XR) = Ok (fv A) -> curvePoint fuel n p U (map fv P) (Fin v : XR) = Ok (fv B) ->
  rdist A B <= poly_length (firstn (Z.to_nat (n + 1)) P).
Proof.
  intros D Hp1 HM Hf Hu Hv L EA EB. pose proof (C180_length U P n p fuel [u; v] [A; B] D Hp1 HM Hf) as H. cbn [poly_length] in H.
  rewrite Rplus_0_r, Rplus_0_r in H. apply H; [cbn; auto|constructor; [exact Hu|constructor; [exact Hv|constructor]]|constructor; [exact EA|constructor; [exact EB|constructor]]].
Qed.
Print Assumptions C180_chord.

(** the curve of the repository's test: five parameters in order *)
Example C180_nonvacuous : let us := [3; 7 / 2; 9 / 2; 6; 8] in curve_data U13 P9 8 3 /\ multiplicity_at_most U13 8 3 3 /\ increasing us /\ Forall (in_domain U13 8 3) us /\
  exists Cs, Forall2 (fun u C => curvePoint 6 8 3 U13 (map fv P9) (Fin u : XR) = Ok (fv C)) us Cs /\ length Cs = 5%nat /\
    poly_length Cs <= poly_length P9.
Proof.
  cbv zeta. destruct C127_134_nonvacuous as (D & M & _). split; [exact D|]. split; [exact M|].
  assert (I : increasing [3; 7 / 2; 9 / 2; 6; 8]) by (cbn; lra). split; [exact I|].
  assert (Dm : Forall (in_domain U13 8 3) [3; 7 / 2; 9 / 2; 6; 8]).
  { repeat (constructor; [split; [rewrite !U13_knot by lia; change (8 + 1)%Z with 9%Z; lra|rewrite !U13_knot by lia; change (8 + 1)%Z with 9%Z; lra]|]). constructor. }
  split; [exact Dm|]. destruct (C180_points U13 P9 8 3 6 _ D ltac:(cbn; lia) Dm) as (Cs & F). exists Cs. split; [exact F|]. split; [clear - F; repeat match goal with H : Forall2 _ _ _ |- _ => inversion H; clear H; subst end; reflexivity|].
  apply (C180_length U13 P9 8 3 6 _ Cs D ltac:(lia) M ltac:(cbn; lia) I Dm F).
Qed.
