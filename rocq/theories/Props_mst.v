(** Property theorems C178: the triangulation contains a shortest network connecting its vertices. *)
From Coq Require Import ZArith Lia List Bool Reals Lra.
From Flocq Require Import Core BinarySingleNaN.
From Verif Require Import Base Arith M_r3 M_tri2 M_triangulator Spec_r3 Spec_plane Spec_halfedge Spec_delaunay Spec_delaunay2 Spec_mst Spec_cleartri XRvec P_flipterm P_triang P_result P_tri3 Props_legalize
  P_delcomp P_mst Props_triangulator Props_tiling Props_grid Props_delcomp Props_clearhull Props_cleartri Props_clearopt.
Import ListNotations.
Open Scope R_scope.

Theorem C178_exact srt pts t : input_ok srt pts -> returns srt pts t false -> has_shortest_networks pts (tTriangles t).
Proof. intros H Ret. apply mst_all. intros u v. exact (C124_bottleneck srt pts t H Ret u v). Qed.
Print Assumptions C178_exact.
(** and as compiled, in float64 *)
Theorem C178_b64 srt (vs : list (vec B64)) t : grid_ok srt vs \/ clear_ok srt vs -> returns64 srt vs t false -> has_shortest_networks (values vs) (tTriangles t).
Proof.
  intros [H|H] Ret; apply mst_all; intros u v Hu Hv.
  - apply (C124_grid64 srt vs t H Ret); assumption.
  - apply (C164_edges srt vs t H Ret u v Hu Hv).
Qed.
Print Assumptions C178_b64.

(** total length, and the longest link, are costs of this kind *)
Definition longer_than (m x : R) : R := if Rle_dec x m then 0 else 1.
Lemma growing_length : growing sqrt.
Proof. split; [intros; apply sqrt_pos|]. intros x y (H1 & H2). apply sqrt_le_1_alt. exact H2. Qed.
Lemma growing_longest m : growing (longer_than m).
Proof. split; unfold longer_than; intros; repeat destruct Rle_dec; lra. Qed.
Lemma cost_longest pts m L : cost pts (longer_than m) L <= 0 <-> forall u v, In (u, v) L -> d2 pts u v <= m.
Proof.
  assert (P0 : forall L, 0 <= cost pts (longer_than m) L) by (induction L0 as [|e l IH]; cbn; [lra|]; unfold cost in IH; unfold longer_than at 1; destruct Rle_dec; lra).
  induction L as [|(a, b) L IH]; [split; [intros _ u v []|intros _; apply Rle_refl]|]. rewrite cost_cons. cbn [fst snd]. specialize (P0 L). unfold longer_than at 1.
  destruct (Rle_dec (d2 pts a b) m) as [D|D].
  - rewrite Rplus_0_l, IH. split; intros K u v; [intros [E|E]; [injection E as <- <-; exact D|auto]|intros E; apply K; right; exact E].
  - split; [lra|]. intros K. exfalso. apply D, K. left. reflexivity.
Qed.
(** every network has, for the same vertices, one of edges of triangles of no greater length and no longer longest link *)
Theorem C178_length srt pts t : input_ok srt pts -> returns srt pts t false -> let T := tTriangles t in forall L, network T L ->
  exists M, network T M /\ of_edges T M /\ (length M <= length L)%nat /\ cost pts sqrt M <= cost pts sqrt L /\
    forall m, (forall u v, In (u, v) L -> d2 pts u v <= m) -> forall u v, In (u, v) M -> d2 pts u v <= m.
Proof.
  intros H Ret T L NL. destruct (C178_exact srt pts t H Ret) as (X & _). destruct (X L NL) as (M & N & Ed & Le & C).
  exists M. split; [exact N|]. split; [exact Ed|]. split; [exact Le|]. split; [apply C, growing_length|]. intros m K. apply cost_longest. apply cost_longest in K.
  apply (Rle_trans _ _ _ (C _ (growing_longest m))). exact K.
Qed.
Print Assumptions C178_length.

(** ** the points of C161: the link 0-5 is not an edge; some network of edges is at least as short as the one using it *)
Example C178_nonvacuous : let vs := map zv ex161 in clear_ok isort vs /\ exists t, returns64 isort vs t false /\
  network (tTriangles t) [(0, 5); (0, 1); (0, 2); (0, 4)]%Z /\ ~ joined (tTriangles t) 0 5 /\
  exists M, network (tTriangles t) M /\ of_edges (tTriangles t) M /\ cost (values vs) sqrt M <= cost (values vs) sqrt [(0, 5); (0, 1); (0, 2); (0, 4)]%Z.
Proof.
  cbv zeta. destruct C161_nonvacuous as (Ok' & _ & _ & ET). split; [exact Ok'|].
  destruct (C161_returns isort _ Ok') as (t & err & Ret & _). pose proof Ret as Ret0. unfold returns64 in Ret. rewrite Ret in ET. clear Ret. destruct err; [discriminate ET|].
  assert (ET' : tTriangles t = [4; 0; 2; 2; 5; 4; 5; 1; 4; 4; 1; 0]%Z) by (injection ET; auto). clear ET. exists t. split; [exact Ret0|].
  assert (N : network (tTriangles t) [(0, 5); (0, 1); (0, 2); (0, 4)]%Z).
  { rewrite ET'. split.
    - intros u v I. cbn [In] in I. repeat (destruct I as [I|I]; [injection I as <- <-; cbn [In]; tauto|]). destruct I.
    - assert (Z0 : forall u, In u [4; 0; 2; 2; 5; 4; 5; 1; 4; 4; 1; 0]%Z -> linked [(0, 5); (0, 1); (0, 2); (0, 4)]%Z 0 u).
      { intros u I. cbn [In] in I. repeat (destruct I as [<-|I]; [first [apply linked_nil|apply linked_one; cbn [In]; tauto]|]). destruct I. }
      intros u v Hu Hv. apply (linked_trans _ _ 0%Z); [apply linked_sym|]; auto. }
  split; [exact N|]. split.
  - intros (_ & a & b & c & I & H0 & H5). rewrite ET' in I. cbn [triples In] in I.
    repeat (destruct I as [I|I]; [injection I as <- <- <-; cbn [In] in H0, H5; lia|]). destruct I.
  - destruct (C178_b64 isort (map zv ex161) t (or_intror Ok') Ret0) as (X & _). destruct (X _ N) as (M & N1 & Ed & _ & C). exists M. split; [exact N1|]. split; [exact Ed|]. apply C, growing_length.
Qed.
