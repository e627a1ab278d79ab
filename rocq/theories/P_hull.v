(** ConvexHull (C28-C30). *)
From Coq Require Import Reals Lra Lia ZArith Bool List Permutation Sorted.
From Verif Require Import Base Arith M_r3 M_tri2 Spec_r3 Spec_plane XRvec P_r3 P_tri2 P_polygon.
Import ListNotations.
Open Scope R_scope.

Lemma last_cons {T} (a b : T) st : last (a :: st) b = last st a.
Proof. destruct st as [|c st]; [reflexivity|]. apply (last_indep c st). Qed.

(** ** the in-place filter compares with the original predecessor (any arithmetic) *)
Section Filter.
Context {A : Arith}.
Fixpoint farPrev (prev : option (vec A)) (l : list (vec A)) : list (vec A) :=
  match l with
  | [] => []
  | p :: l' =>
      if match prev with Some q => flt A (SquaredDistance p q) eps | None => false end
      then farPrev (Some p) l' else p :: farPrev (Some p) l'
  end.

Lemma list_upd_id {T} (l : list T) n a : nth_error l n = Some a -> list_upd l n a = l.
Proof.
  revert n. induction l as [|x l IH]; intros [|n] H; try discriminate; simpl in *.
  - congruence.
  - f_equal; auto.
Qed.
Lemma firstn_upd {T} (l : list T) n a :
  (n < length l)%nat -> firstn (S n) (list_upd l n a) = firstn n l ++ [a].
Proof.
  revert n. induction l as [|x l IH]; intros [|n] H; simpl in *; try lia; auto.
  f_equal. apply IH. lia.
Qed.
Lemma filterNear_loop_spec orig pre rest arr n :
  orig = pre ++ rest -> length arr = length orig ->
  (n <= length pre)%nat ->
  (forall j, (n <= j)%nat -> nth_error arr j = nth_error orig j) ->
  (n = length pre -> arr = orig) ->
  exists arr' n', filterNear_loop (length rest) (Z.of_nat (length pre)) arr (Z.of_nat n) = Ok (arr', Z.of_nat n') /\
    firstn n' arr' = firstn n arr ++ farPrev (match rev pre with [] => None | q :: _ => Some q end) rest.
Proof.
  revert pre arr n. induction rest as [|p rest IH]; intros pre arr n Ho Hlen Hn Hj He.
  - exists arr, n. split; [reflexivity|]. simpl. rewrite app_nil_r. reflexivity.
  - cbn [length filterNear_loop].
    assert (Hp : nth_error arr (length pre) = Some p).
    { rewrite Hj by lia. rewrite Ho, nth_error_app2, Nat.sub_diag by lia. reflexivity. }
    rewrite zget_nat, Hp. cbn [rbind].
    assert (Hpre' : (length pre < length arr)%nat) by (apply nth_error_Some; congruence).
    set (prev := match rev pre with [] => None | q :: _ => Some q end).
    assert (Hskip : (if (0 <? Z.of_nat (length pre))%Z then
       rbind (zget arr (Z.of_nat (length pre) - 1)) (fun prev => Ok (flt A (SquaredDistance p prev) eps))
         else Ok false) =
       Ok (match prev with Some q => flt A (SquaredDistance p q) eps | None => false end)).
    { unfold prev. destruct (rev pre) as [|q r] eqn:Er.
      - assert (pre = []) as -> by (rewrite <- (rev_involutive pre), Er; reflexivity). reflexivity.
      - assert (Hpq : pre = rev r ++ [q]) by (rewrite <- (rev_involutive pre), Er; reflexivity).
        assert (Hl : length pre = S (length (rev r))) by (rewrite Hpq, app_length; simpl; lia).
        destruct (Z.ltb_spec 0 (Z.of_nat (length pre))); [|lia].
        replace (Z.of_nat (length pre) - 1)%Z with (Z.of_nat (length (rev r))) by lia.
        rewrite zget_nat.
        assert (nth_error arr (length (rev r)) = Some q) as ->; [|reflexivity].
        assert (G : nth_error orig (length (rev r)) = Some q).
        { rewrite Ho, Hpq, <- app_assoc, nth_error_app2, Nat.sub_diag by lia. reflexivity. }
        destruct (Nat.eq_dec n (length pre)) as [E|E].
        + rewrite (He E). exact G.
        + rewrite Hj by lia. exact G. }
    rewrite Hskip. cbn [rbind].
    replace (Z.of_nat (length pre) + 1)%Z with (Z.of_nat (length (pre ++ [p])))
      by (rewrite app_length; simpl; lia).
    assert (Hprev : Some p = match rev (pre ++ [p]) with [] => None | q :: _ => Some q end)
      by (rewrite rev_app_distr; reflexivity).
    cbn [farPrev]. fold prev.
    destruct (match prev with Some q => flt A (SquaredDistance p q) eps | None => false end).
    + rewrite Hprev. apply IH.
      * rewrite <- app_assoc. exact Ho.
      * exact Hlen.
      * rewrite app_length. simpl. lia.
      * exact Hj.
      * rewrite app_length. simpl. intros E. lia.
    + rewrite zset_in_range by lia. cbn [rbind]. rewrite Nat2Z.id.
      replace (Z.of_nat n + 1)%Z with (Z.of_nat (S n)) by lia.
      destruct (IH (pre ++ [p]) (list_upd arr n p) (S n)) as (arr' & n' & H1 & H2).
      * rewrite <- app_assoc. exact Ho.
      * rewrite list_upd_length. exact Hlen.
      * rewrite app_length. simpl. lia.
      * intros j Hjn. rewrite list_upd_other by lia. apply Hj. lia.
      * rewrite app_length. simpl. intros E. assert (n = length pre) by lia. subst n.
        rewrite list_upd_id by assumption. auto.
      * exists arr', n'. split; [exact H1|]. rewrite H2, <- Hprev.
        rewrite firstn_upd by lia. rewrite <- app_assoc. reflexivity.
Qed.
Lemma filterNear_spec (vs : list (vec A)) : filterNear vs = Ok (farPrev None vs).
Proof.
  destruct (filterNear_loop_spec vs [] vs vs 0) as (arr' & n' & H1 & H2); auto.
  unfold filterNear. simpl (Z.of_nat _) in H1. rewrite H1. cbn [rbind fst snd].
  rewrite Nat2Z.id, H2. reflexivity.
Qed.

Lemma ConvexHull_unfold srt (vs : list (vec A)) :
  ConvexHull srt vs =
  Ok (let '(U, L) := fold_left hullStep (farPrev None (srt vs)) ([], []) in rev (tl L) ++ removelast U).
Proof.
  unfold ConvexHull. rewrite filterNear_spec. cbn [rbind].
  destruct (fold_left hullStep _ _). reflexivity.
Qed.
Lemma hull_single srt (p : vec A) : sorts lessXY [p] (srt [p]) -> ConvexHull srt [p] = Ok [].
Proof.
  intros [H _]. apply Permutation_length_1_inv in H. rewrite ConvexHull_unfold, H. reflexivity.
Qed.
End Filter.

(** consecutive elements of a list *)
Fixpoint adj {T} (P : T -> T -> Prop) (l : list T) : Prop :=
  match l with
  | [] => True
  | a :: l' => match l' with [] => True | b :: _ => P a b /\ adj P l' end
  end.
Lemma adj_cons2 {T} (P : T -> T -> Prop) a b l : adj P (a :: b :: l) <-> P a b /\ adj P (b :: l).
Proof. reflexivity. Qed.
Lemma adj_impl {T} (P Q : T -> T -> Prop) l : (forall a b, P a b -> Q a b) -> adj P l -> adj Q l.
Proof.
  intros H. induction l as [|a [|b l] IH]; [simpl; auto..|].
  rewrite !adj_cons2. intros [? ?]; split; auto.
Qed.
Lemma adj_tail {T} (P : T -> T -> Prop) a l : adj P (a :: l) -> adj P l.
Proof. destruct l; [simpl; auto|]. rewrite adj_cons2. tauto. Qed.
Lemma adj_app {T} (P : T -> T -> Prop) l a m : adj P (l ++ a :: m) <-> adj P (l ++ [a]) /\ adj P (a :: m).
Proof.
  induction l as [|x l IH].
  - simpl. tauto.
  - destruct l as [|y l].
    + simpl ([x] ++ a :: m). simpl ([x] ++ [a]). rewrite !adj_cons2. simpl. tauto.
    + simpl app in *. rewrite !adj_cons2, IH. tauto.
Qed.
Lemma adj_rev {T} (P : T -> T -> Prop) l : adj P (rev l) <-> adj (fun a b => P b a) l.
Proof.
  induction l as [|x l IH]; [simpl; tauto|].
  destruct l as [|y l]; [simpl; tauto|].
  rewrite adj_cons2, <- IH. simpl rev. rewrite <- app_assoc. simpl app.
  rewrite adj_app. simpl (adj P [y; x]). tauto.
Qed.

(** ** the real counterpart of the chains *)
Section Chain.
Variable s : R.
Hypothesis Hs : s = 1 \/ s = -1.

Fixpoint popR (p : rv) (st : list rv) : list rv :=
  match st with
  | b :: st' =>
      match st' with
      | a :: _ => if Rltb (s * ccw a b p) 0 then popR p st' else st
      | [] => st
      end
  | [] => []
  end.
Definition crossv (u v : R * R) : R := fst u * snd v - snd u * fst v.
Definition lexpos (u : R * R) : Prop := 0 < fst u \/ (fst u = 0 /\ 0 < snd u).

Lemma cross_trans u v w : lexpos u -> lexpos v -> lexpos w ->
  0 <= s * crossv u v -> 0 <= s * crossv v w -> 0 <= s * crossv u w.
Proof.
  destruct u as [ux uy], v as [a b], w as [wx wy]. unfold lexpos, crossv; simpl.
  intros Hu [Hv|[-> Hv]] Hw H1 H2.
  - assert (E : a * (s * (ux * wy - uy * wx)) =
       ux * (s * (a * wy - b * wx)) + wx * (s * (ux * b - uy * a))) by ring.
    assert (0 <= ux) by lra. assert (0 <= wx) by lra.
    assert (0 <= a * (s * (ux * wy - uy * wx))).
    { rewrite E. apply Rplus_le_le_0_compat; apply Rmult_le_pos; auto. }
    apply (Rmult_le_reg_l a); [auto|]. rewrite Rmult_0_r. auto.
  - destruct Hs as [-> | ->].
    + assert (wx = 0). { destruct Hw as [Hw|[? _]]; auto. exfalso. assert (0 < b * wx) by (apply Rmult_lt_0_compat; auto). lra. }
      destruct Hw as [?|[_ Hw]]; [lra|]. subst wx. assert (0 <= ux) by lra.
      assert (0 <= ux * wy) by (apply Rmult_le_pos; lra). lra.
    + assert (ux = 0). { destruct Hu as [Hu|[? _]]; auto. exfalso. assert (0 < ux * b) by (apply Rmult_lt_0_compat; auto). lra. }
      destruct Hu as [?|[_ Hu]]; [lra|]. subst ux. assert (0 <= wx) by lra.
      assert (0 <= uy * wx) by (apply Rmult_le_pos; lra). lra.
Qed.
Definition vsub (b a : rv) : R * R := (rx b - rx a, ry b - ry a).
Lemma lexlt_pos a b : lexlt a b -> lexpos (vsub b a).
Proof. unfold lexlt, lexpos, vsub; simpl. intros [?|[? ?]]; [left|right]; lra. Qed.

(** the edge condition: x below y on the chain, all of Q on the inner side *)
Definition edge (Q : list rv) (y x : rv) : Prop :=
  lexlt x y /\ In x Q /\ In y Q /\ forall q, In q Q -> 0 <= s * ccw x y q.

Definition leq (a b : rv) : Prop := a = b \/ lexlt a b.

Lemma popR_spec Q p st b :
  (forall q, In q Q -> lexlt q p) ->
  (forall a c, In a Q -> In c Q -> a = c \/ lexlt a c \/ lexlt c a) ->
  In b Q ->
  adj (edge Q) (b :: st) ->
  (forall q, In q Q -> leq (last st b) q) ->
  (forall q, In q Q -> leq b q -> 0 <= s * ccw b p q) ->
  exists b' st', popR p (b :: st) = b' :: st' /\ In b' Q /\ adj (edge Q) (b' :: st') /\
     last st' b' = last st b /\
     (forall q, In q Q -> 0 <= s * ccw b' p q) /\
     (match st' with [] => True | a :: _ => 0 <= s * ccw a b' p end) /\
     exists top, b :: st = top ++ b' :: st'.
Proof.
  intros Hp Htot. revert b. induction st as [|a st IH]; intros b Hb Hadj Hlast Hcond.
  - exists b, []. split; [reflexivity|]. split; [auto|]. split; [exact Hadj|].
    split; [reflexivity|]. split; [|split; [auto|exists []; reflexivity]].
    intros q Hq. apply Hcond; [exact Hq|exact (Hlast q Hq)].
  - cbn [popR]. apply adj_cons2 in Hadj. destruct Hadj as [(Hab & Ha & _ & He) Hadj].
    assert (Hlast' : last (a :: st) b = last st a).
    { apply last_cons. }
    destruct (Rltb_spec (s * ccw a b p) 0) as [Hlt|Hge].
    + destruct (IH a Ha Hadj) as (b' & st' & R1 & R2 & R3 & R4 & R5 & R6 & top & R7).
      * intros q Hq. rewrite <- Hlast'. auto.
      * intros q Hq [<-|Haq]; [unfold ccw; lra|].
        pose proof (cross_trans (vsub p a) (vsub b a) (vsub q a)
          (lexlt_pos _ _ (Hp a Ha)) (lexlt_pos _ _ Hab) (lexlt_pos _ _ Haq)) as T.
        specialize (He q Hq).
        assert (E : forall u v w, ccw u v w = crossv (vsub v u) (vsub w u)) by (intros; reflexivity).
        rewrite !E in *. apply T; auto.
        replace (crossv (vsub p a) (vsub b a)) with (- crossv (vsub b a) (vsub p a)) by (unfold crossv; ring).
        lra.
      * exists b', st'. repeat split; auto.
        -- rewrite R4, <- Hlast'. reflexivity.
        -- exists (b :: top). simpl. rewrite R7. reflexivity.
    + exists b, (a :: st). split; [reflexivity|]. split; [auto|].
      split; [apply adj_cons2; split; [repeat split; auto|auto]|].
      split; [reflexivity|]. split; [|split; [exact Hge|exists []; reflexivity]].
      intros q Hq. destruct (Htot b q Hb Hq) as [<-|[Hbq|Hqb]].
      * apply Hcond; auto. left; reflexivity.
      * apply Hcond; auto. right; auto.
      * specialize (He q Hq).
        pose proof (cross_trans (vsub b q) (vsub b a) (vsub p b)
          (lexlt_pos _ _ Hqb) (lexlt_pos _ _ Hab) (lexlt_pos _ _ (Hp b Hb))) as T.
        assert (E1 : ccw a b q = crossv (vsub b q) (vsub b a)) by (unfold ccw, crossv, vsub; simpl; ring).
        assert (E2 : ccw a b p = crossv (vsub b a) (vsub p b)) by (unfold ccw, crossv, vsub; simpl; ring).
        assert (E3 : ccw b p q = crossv (vsub b q) (vsub p b)) by (unfold ccw, crossv, vsub; simpl; ring).
        rewrite E1 in He. rewrite E2 in Hge. rewrite E3. apply T; auto.
Qed.

(** all edges of the remaining chain have the new point on the inner side *)
Lemma chain_new_point Q p st b :
  (forall q, In q Q -> lexlt q p) ->
  adj (edge Q) (b :: st) ->
  match st with [] => True | a :: _ => 0 <= s * ccw a b p end ->
  adj (fun y x => 0 <= s * ccw x y p) (b :: st).
Proof.
  intros Hp. revert b. induction st as [|a st IH]; intros b Hadj Htop; [exact I|].
  rewrite adj_cons2 in *. destruct Hadj as [(Hab & Ha & Hb & He) Hadj]. split; [exact Htop|].
  apply IH; auto. destruct st as [|c st]; [exact I|].
  apply adj_cons2 in Hadj. destruct Hadj as [(Hca & Hc & _ & Hec) _].
  pose proof (cross_trans (vsub a c) (vsub b a) (vsub p a)
     (lexlt_pos _ _ Hca) (lexlt_pos _ _ Hab) (lexlt_pos _ _ (Hp a Ha))) as T.
  specialize (Hec b Hb).
  replace (ccw c a p) with (crossv (vsub a c) (vsub p a)) by (unfold ccw, crossv, vsub; simpl; ring).
  apply T; [|exact Htop].
  replace (crossv (vsub a c) (vsub b a)) with (ccw c a b) by (unfold ccw, crossv, vsub; simpl; ring). auto.
Qed.

Definition chain_inv (Q st : list rv) : Prop :=
  exists b st', st = b :: st' /\ In b Q /\ (forall q, In q Q -> leq q b) /\
     (forall q, In q Q -> leq (last st' b) q) /\ adj (edge Q) st.

Lemma chain_step Q st p :
  (forall q, In q Q -> lexlt q p) ->
  (forall a c, In a Q -> In c Q -> a = c \/ lexlt a c \/ lexlt c a) ->
  chain_inv Q st -> chain_inv (Q ++ [p]) (p :: popR p st).
Proof.
  intros Hp Htot (b & st' & -> & Hb & Hmax & Hmin & Hadj).
  destruct (popR_spec Q p st' b) as (b' & st2 & R1 & R2 & R3 & R4 & R5 & R6 & _); auto.
  { intros q Hq Hle. destruct (Hmax q Hq) as [->|H1]; [unfold ccw; lra|].
    destruct Hle as [<-|H2]; [unfold ccw; lra|].
    exfalso. unfold lexlt in *. lra. }
  rewrite R1. exists p, (b' :: st2). split; [reflexivity|].
  split; [apply in_or_app; right; left; reflexivity|].
  assert (Hlast : last (b' :: st2) p = last st' b).
  { rewrite <- R4. apply last_cons. }
  split; [|split].
  - intros q Hq. apply in_app_or in Hq. destruct Hq as [Hq|[<-|[]]]; [right; auto|left; auto].
  - rewrite Hlast. intros q Hq. apply in_app_or in Hq. destruct Hq as [Hq|[<-|[]]]; auto.
    right. apply Hp.
    assert (G : forall m c, In c Q -> adj (edge Q) (c :: m) -> In (last m c) Q).
    { induction m as [|d m IH]; intros c Hc Ha; [exact Hc|].
      apply adj_cons2 in Ha. destruct Ha as [(_ & Hd & _) Ha].
      assert (E : last (d :: m) c = last m d).
      { apply last_cons. }
      rewrite E. auto. }
    apply G; auto.
  - apply adj_cons2. split.
    + split; [auto|]. split; [apply in_or_app; auto|]. split; [apply in_or_app; right; left; reflexivity|].
      intros q Hq. apply in_app_or in Hq. destruct Hq as [Hq|[<-|[]]]; auto. unfold ccw. lra.
    + pose proof (chain_new_point Q p st2 b' Hp R3 R6) as N.
      revert R3 N. generalize (b' :: st2). clear. intros l.
      induction l as [|x [|y l] IH]; [simpl; auto..|].
      rewrite !adj_cons2. intros [(H1 & H2 & H3 & H4) H5] [H6 H7]. split; [|auto].
      split; [auto|]. split; [apply in_or_app; auto|]. split; [apply in_or_app; auto|].
      intros q Hq. apply in_app_or in Hq. destruct Hq as [Hq|[<-|[]]]; auto.
Qed.
Lemma popR_incl p st x : In x (popR p st) -> In x st.
Proof.
  induction st as [|b [|a st] IH]; simpl popR; auto.
  destruct (Rltb _ 0); auto. intros H. right. apply IH. exact H.
Qed.
End Chain.

Definition hullStepR (UL : list rv * list rv) (p : rv) : list rv * list rv :=
  let '(U, L) := UL in (p :: popR (-1) p U, p :: popR 1 p L).

Lemma popWhile_U p st : popWhile testU (fv p) (map fv st) = map fv (popR (-1) p st).
Proof.
  induction st as [|b [|a st] IH]; [reflexivity..|].
  cbn [map popWhile popR] in *. unfold testU at 1. rewrite cross2D_fv. cbn [flt fofZ XR xltb].
  replace (Rltb 0 (ccw a b p)) with (Rltb (-1 * ccw a b p) 0).
  2:{ destruct (Rltb_spec (-1 * ccw a b p) 0), (Rltb_spec 0 (ccw a b p)); auto; lra. }
  destruct (Rltb (-1 * ccw a b p) 0); [exact IH|reflexivity].
Qed.
Lemma popWhile_L p st : popWhile testL (fv p) (map fv st) = map fv (popR 1 p st).
Proof.
  induction st as [|b [|a st] IH]; [reflexivity..|].
  cbn [map popWhile popR] in *. unfold testL at 1. rewrite cross2D_fv. cbn [flt fofZ XR xltb].
  rewrite Rmult_1_l.
  destruct (Rltb (ccw a b p) 0); [exact IH|reflexivity].
Qed.
Lemma fold_hull l U L :
  fold_left hullStep (map fv l) (map fv U, map fv L) =
  let '(U', L') := fold_left hullStepR l (U, L) in (map fv U', map fv L').
Proof.
  revert U L. induction l as [|p l IH]; intros U L; [reflexivity|].
  cbn [map fold_left hullStep hullStepR]. rewrite popWhile_U, popWhile_L.
  apply (IH (p :: popR (-1) p U) (p :: popR 1 p L)).
Qed.

Fixpoint farR (prev : option rv) (l : list rv) : list rv :=
  match l with
  | [] => []
  | p :: l' =>
      if match prev with Some q => Rltb (rdist2 p q) epsR | None => false end
      then farR (Some p) l' else p :: farR (Some p) l'
  end.
Lemma farPrev_fv prev l : farPrev (option_map fv prev) (map fv l) = map fv (farR prev l).
Proof.
  revert prev. induction l as [|p l IH]; intros prev; [reflexivity|].
  cbn [map farPrev farR]. pose proof (IH (Some p)) as E; cbn [option_map] in E; rewrite E.
  destruct prev as [q|]; [|reflexivity]. cbn [option_map]. rewrite SquaredDistance_fv, eps_fin.
  cbn [flt XR xltb]. destruct (Rltb (rdist2 p q) epsR); reflexivity.
Qed.

Definition hullR (l : list rv) : list rv :=
  let '(U, L) := fold_left hullStepR l ([], []) in rev (tl L) ++ removelast U.
Lemma ConvexHull_fv srt vs ss : srt (map fv vs) = map fv ss ->
  ConvexHull srt (map fv vs) = Ok (map fv (hullR (farR None ss))).
Proof.
  intros H. rewrite ConvexHull_unfold, H. f_equal.
  pose proof (farPrev_fv None ss) as E. cbn [option_map] in E. rewrite E.
  pose proof (fold_hull (farR None ss) [] []) as G. cbn [map] in G. rewrite G.
  unfold hullR. destruct (fold_left hullStepR _ _) as [U L].
  rewrite map_app, map_rev. f_equal.
  - destruct L; reflexivity.
  - clear. induction U as [|a [|b U] IH]; [reflexivity..|]. simpl in *. rewrite IH. reflexivity.
Qed.
Lemma lessXY_fv a b : lessXY (fv a) (fv b) = true <-> lexlt a b.
Proof.
  unfold lessXY, lexlt. cbn [vx vy fv feq flt XR xeqb xltb].
  destruct (Reqb_spec (rx a) (rx b)) as [E|E]; simpl negb; cbv iota.
  - destruct (Rltb_spec (ry a) (ry b)); split; intros; try discriminate; try lra; auto.
  - destruct (Rltb_spec (rx a) (rx b)); split; intros; try discriminate; try lra; auto.
Qed.
Lemma sorts_fv vs s : sorts lessXY (map fv vs) s ->
  exists ss, s = map fv ss /\ Permutation vs ss /\ StronglySorted (fun a b => ~ lexlt b a) ss.
Proof.
  intros [Hp Hs]. destruct (Permutation_map_inv _ _ (Permutation_sym Hp)) as (ss & -> & Hss).
  exists ss. split; [reflexivity|]. split; [exact Hss|]. clear -Hs.
  induction ss as [|a ss IH]; [constructor|]. simpl in Hs. inversion Hs; subst.
  constructor; [auto|]. rewrite Forall_forall in *. intros b Hb Hl.
  specialize (H2 (fv b) (in_map fv _ _ Hb)). apply lessXY_fv in Hl. congruence.
Qed.

(** the chains of a strictly sorted list *)
Lemma chains_strict l : l <> [] -> StronglySorted lexlt l ->
  exists U L, fold_left hullStepR l ([], []) = (U, L) /\ chain_inv (-1) l U /\ chain_inv 1 l L.
Proof.
  intros Hne Hs.
  assert (Htot : forall a c, In a l -> In c l -> a = c \/ lexlt a c \/ lexlt c a).
  { clear -Hs. induction Hs as [|x l Hs IH Hf]; [intros ? ? []|].
    rewrite Forall_forall in Hf. intros a c [<-|Ha] [<-|Hc]; auto. }
  assert (G : forall pre post, l = pre ++ post -> pre <> [] ->
     forall U L, chain_inv (-1) pre U -> chain_inv 1 pre L ->
     exists U' L', fold_left hullStepR post (U, L) = (U', L') /\ chain_inv (-1) l U' /\ chain_inv 1 l L').
  { intros pre post. revert pre. induction post as [|p post IH]; intros pre E Hpre U L HU HL.
    - rewrite app_nil_r in E. subst pre. exists U, L. auto.
    - cbn [fold_left hullStepR].
      assert (Hp : forall q, In q pre -> lexlt q p).
      { intros q Hq. subst l. clear -Hs Hq. induction pre as [|x pre IH]; [destruct Hq|].
        simpl in Hs. inversion Hs; subst. destruct Hq as [->|Hq]; auto.
        rewrite Forall_forall in H2. apply H2. apply in_or_app; right; left; reflexivity. }
      assert (Ht : forall a c, In a pre -> In c pre -> a = c \/ lexlt a c \/ lexlt c a).
      { intros a c Ha Hc. apply Htot; subst l; apply in_or_app; auto. }
      apply (IH (pre ++ [p])).
      + rewrite <- app_assoc. exact E.
      + destruct pre; discriminate.
      + apply chain_step; auto.
      + apply chain_step; auto. }
  destruct l as [|x l]; [congruence|]. cbn [fold_left hullStepR popR].
  apply (G [x] l); [reflexivity|discriminate| |];
    (exists x, []; repeat split; [left; reflexivity| | ];
     intros q [<-|[]]; left; reflexivity).
Qed.

Lemma edges_adj (P : rv -> rv -> Prop) x l :
  adj P (x :: l ++ [x]) -> forall e, In e (polygon_edges (x :: l)) -> P (fst e) (snd e).
Proof.
  unfold polygon_edges.
  assert (G : forall m y, adj P (y :: m ++ [x]) -> forall e, In e (combine (y :: m) (m ++ [x])) -> P (fst e) (snd e)).
  { induction m as [|z m IH]; intros y H e.
    - intros [<-|[]]. simpl in *. tauto.
    - change ((z :: m) ++ [x]) with (z :: m ++ [x]) in *. rewrite adj_cons2 in H.
      cbn [combine]. intros [<-|He]; [tauto|]. apply (IH z); [tauto|]. exact He. }
  apply G.
Qed.

Lemma leq_antisym a b : leq a b -> leq b a -> a = b.
Proof. unfold leq, lexlt. intros [?|?] [?|?]; auto; lra. Qed.

Lemma hullR_strict l : StronglySorted lexlt l -> (2 <= length l)%nat ->
  encloses (hullR l) l /\ incl (hullR l) l /\ NoDup l /\
  (exists h1 h2 a b, hullR l = a :: h1 ++ b :: h2 /\
     (forall q, In q l -> leq a q) /\ (forall q, In q l -> leq q b) /\ lexlt a b).
Proof.
  intros Hs Hlen.
  assert (Hne : l <> []) by (destruct l; [simpl in Hlen; lia|discriminate]).
  assert (Hnd : NoDup l).
  { clear -Hs. induction Hs as [|x l Hs IH Hf]; constructor; auto.
    rewrite Forall_forall in Hf. intros Hx. specialize (Hf x Hx). unfold lexlt in Hf. lra. }
  destruct (chains_strict l Hne Hs) as (U & L & E & (bu & U' & -> & Hbu & Umax & Umin & Uadj) & (bl & L' & -> & Hbl & Lmax & Lmin & Ladj)).
  assert (bl = bu) by (apply leq_antisym; auto). subst bl. rename bu into b.
  assert (Hin : forall s m c, In c l -> adj (edge s l) (c :: m) -> incl (c :: m) l).
  { induction m as [|d m IH]; intros c Hc Ha y [<-|Hy]; [auto|destruct Hy|auto|].
    apply adj_cons2 in Ha. destruct Ha as [(_ & Hd & _) Ha]. apply (IH d Hd Ha). exact Hy. }
  assert (HinU := Hin _ _ _ Hbu Uadj). assert (HinL := Hin _ _ _ Hbl Ladj).
  assert (Hlastin : forall m c, incl (c :: m) l -> In (last m c) l).
  { induction m as [|d m IH]; intros c Hc; [apply Hc; left; reflexivity|].
    assert (El : last (d :: m) c = last m d).
    { apply last_cons. }
    rewrite El. apply IH. intros y Hy. apply Hc. right; auto. }
  remember (last U' b) as a eqn:Da in *.
  assert (Ha : last L' b = a).
  { apply leq_antisym; [apply Lmin; rewrite Da; apply Hlastin; auto|apply Umin; apply Hlastin; auto]. }
  assert (Hab : lexlt a b).
  { assert (Hal : In a l) by (rewrite Da; apply Hlastin; auto).
    destruct (Umax a Hal) as [E2|]; auto. exfalso.
    assert (forall q, In q l -> q = b).
    { intros q Hq. apply leq_antisym; auto. rewrite <- E2. auto. }
    destruct l as [|x [|y l]]; simpl in Hlen; try lia.
    assert (x = y) by (rewrite (H x), (H y); simpl; auto).
    subst y. apply NoDup_cons_iff in Hnd. apply (proj1 Hnd). left; reflexivity. }
  (* split the chains at their bottom *)
  assert (HU : exists u, U' = u ++ [a]).
  { destruct U' as [|c m]; [exfalso; simpl in Da; subst; unfold lexlt in Hab; lra|].
    destruct (@exists_last _ (c :: m)) as (u & z & Ez); [discriminate|].
    exists u. rewrite Da, Ez, last_last. reflexivity. }
  assert (HL : exists u, L' = u ++ [a]).
  { destruct L' as [|c m]; [exfalso; simpl in Ha; rewrite Ha in Hab; unfold lexlt in Hab; lra|].
    destruct (@exists_last _ (c :: m)) as (u & z & Ez); [discriminate|].
    exists u. rewrite <- Ha, Ez, last_last. reflexivity. }
  destruct HU as [u ->]. destruct HL as [v ->].
  assert (Hh : hullR l = a :: rev v ++ b :: u).
  { unfold hullR. rewrite E. cbn [tl]. rewrite rev_app_distr. cbn [rev app].
    f_equal. f_equal. change (b :: u ++ [a]) with ((b :: u) ++ [a]). rewrite removelast_last. reflexivity. }
  split; [|split; [|split; [exact Hnd|]]].
  - unfold encloses. rewrite Hh. apply (edges_adj (fun x y => forall q, In q l -> 0 <= ccw x y q)).
    rewrite <- app_assoc. change ((b :: u) ++ [a]) with (b :: u ++ [a]).
    rewrite app_comm_cons. apply adj_app. split.
    + change (adj (fun x y => forall q, In q l -> 0 <= ccw x y q) (([a] ++ rev v) ++ [b])).
      replace (([a] ++ rev v) ++ [b]) with (rev (b :: v ++ [a]))
        by (simpl; rewrite rev_app_distr; reflexivity).
      apply adj_rev. eapply adj_impl; [|exact Ladj].
      intros y x (_ & _ & _ & H) q Hq. specialize (H q Hq). lra.
    + eapply adj_impl; [|exact Uadj].
      intros y x (_ & _ & _ & H) q Hq. specialize (H q Hq).
      replace (ccw y x q) with (- ccw x y q) by (unfold ccw; ring). lra.
  - rewrite Hh. intros y [<-|Hy].
    + apply HinU. right. apply in_or_app; right; left; reflexivity.
    + apply in_app_or in Hy. destruct Hy as [Hy|[<-|Hy]].
      * apply in_rev in Hy. apply HinL. right. apply in_or_app; auto.
      * auto.
      * apply HinU. right. apply in_or_app; auto.
  - exists (rev v), u, a, b. split; [exact Hh|]. split; [|split; [exact Umax|exact Hab]].
    intros q Hq. specialize (Umin q Hq). exact Umin.
Qed.

(** the filter on a sorted list of separated points removes exact duplicates only *)
Lemma rdist2_self a : rdist2 a a = 0.
Proof. unfold rdist2, rdot, rsub; simpl. ring. Qed.
Lemma lex_total a b : samexy a b \/ lexlt a b \/ lexlt b a.
Proof.
  unfold samexy, lexlt. destruct (Rtotal_order (rx a) (rx b)) as [?|[?|?]]; auto.
  destruct (Rtotal_order (ry a) (ry b)) as [?|[?|?]]; auto.
Qed.
Lemma rv_eq_dec (a b : rv) : {a = b} + {a <> b}.
Proof.
  destruct a as [a1 a2 a3], b as [b1 b2 b3].
  destruct (Req_EM_T a1 b1), (Req_EM_T a2 b2), (Req_EM_T a3 b3); subst; auto; right; congruence.
Defined.
Lemma farR_some q l : separated (q :: l) -> StronglySorted (fun a b => ~ lexlt b a) (q :: l) ->
  StronglySorted lexlt (q :: farR (Some q) l) /\ (forall x, In x (q :: farR (Some q) l) <-> In x (q :: l)).
Proof.
  revert q. induction l as [|p l IH]; intros q Hsep Hs.
  - simpl. split; [constructor; constructor|tauto].
  - cbn [farR]. inversion Hs as [|? ? Hs' Hf]; subst.
    assert (Hsep' : separated (p :: l)) by (intros a b Ha Hb; apply Hsep; right; auto).
    destruct (IH p Hsep' Hs') as [I1 I2].
    destruct (rv_eq_dec p q) as [->|Hpq].
    + rewrite rdist2_self. pose proof epsR_pos. destruct (Rltb_spec 0 epsR); [|lra].
      split; [exact I1|]. intros x. specialize (I2 x). simpl in *. tauto.
    + destruct (Hsep p q) as [Hxy Hd]; [simpl; auto..|].
      destruct (Rltb_spec (rdist2 p q) epsR); [lra|].
      assert (Hqp : lexlt q p).
      { rewrite Forall_forall in Hf. specialize (Hf p (or_introl eq_refl)).
        destruct (lex_total p q) as [?|[?|?]]; tauto. }
      split.
      * constructor; [exact I1|]. constructor; [exact Hqp|].
        inversion I1; subst. eapply Forall_impl; [|eassumption].
        intros x Hx. unfold lexlt in *. lra.
      * intros x. specialize (I2 x). simpl in *. tauto.
Qed.
Lemma farR_sorted l : separated l -> StronglySorted (fun a b => ~ lexlt b a) l ->
  StronglySorted lexlt (farR None l) /\ (forall x, In x (farR None l) <-> In x l).
Proof.
  destruct l as [|q l]; intros Hsep Hs.
  - simpl. split; [constructor|tauto].
  - apply (farR_some q l Hsep Hs).
Qed.

(** C28 *)
Lemma convex_hull_correct srt vs :
  sorts lessXY (map fv vs) (srt (map fv vs)) ->
  separated vs ->
  (exists p q, In p vs /\ In q vs /\ p <> q) ->
  exists h, ConvexHull srt (map fv vs) = Ok (map fv h) /\
    incl h vs /\ encloses h vs /\
    (exists a b, In a h /\ In b h /\ a <> b /\
       (forall q, In q vs -> q <> a -> lexlt a q) /\ (forall q, In q vs -> q <> b -> lexlt q b)).
Proof.
  intros Hsort Hsep (p & q & Hp & Hq & Hpq).
  destruct (sorts_fv _ _ Hsort) as (ss & Hss & Hperm & Hsorted).
  assert (Hsep' : separated ss).
  { intros a b Ha Hb. apply Hsep; (eapply Permutation_in; [apply Permutation_sym, Hperm|auto]). }
  destruct (farR_sorted ss Hsep' Hsorted) as [S1 S2].
  set (l := farR None ss) in *.
  assert (Hin : forall x, In x l <-> In x vs).
  { intros x. rewrite S2. split; intros H; [apply (Permutation_in _ (Permutation_sym Hperm) H)|apply (Permutation_in _ Hperm H)]. }
  assert (Hlen : (2 <= length l)%nat).
  { apply Hin in Hp. apply Hin in Hq. destruct l as [|x [|y l']]; simpl in *; try lia; intuition congruence. }
  destruct (hullR_strict l S1 Hlen) as (H1 & H2 & _ & h1 & h2 & a & b & H3 & H4 & H5 & H6).
  exists (hullR l). split; [apply ConvexHull_fv; exact Hss|].
  split; [intros x Hx; apply Hin, H2, Hx|].
  split; [intros e He x Hx; apply H1; auto; apply Hin; auto|].
  exists a, b. rewrite H3.
  split; [left; reflexivity|]. split; [right; apply in_or_app; right; left; reflexivity|].
  split; [intros ->; unfold lexlt in H6; lra|].
  split; intros x Hx Hne; apply Hin in Hx.
  - destruct (H4 x Hx); congruence.
  - destruct (H5 x Hx); congruence.
Qed.

(** ** degenerate input: collinear points *)
Lemma popR_collinear s p st : (forall a b, In a st -> In b st -> ccw a b p = 0) -> popR s p st = st.
Proof.
  induction st as [|b [|a st] IH]; [reflexivity..|]. intros H. cbn [popR].
  rewrite (H a b) by (simpl; auto). rewrite Rmult_0_r.
  destruct (Rltb_spec 0 0); [lra|reflexivity].
Qed.
Lemma hullR_collinear l : (forall a b c, In a l -> In b l -> In c l -> ccw a b c = 0) ->
  hullR l = removelast l ++ removelast (rev l).
Proof.
  intros H.
  assert (G : forall post pre, l = pre ++ post ->
     fold_left hullStepR post (rev pre, rev pre) = (rev l, rev l)).
  { induction post as [|p post IH]; intros pre E.
    - rewrite app_nil_r in E. subst. reflexivity.
    - cbn [fold_left hullStepR].
      assert (Hi : forall x, In x (rev pre) -> In x l)
        by (intros x Hx; apply in_rev in Hx; subst l; apply in_or_app; auto).
      assert (Hp : In p l) by (subst l; apply in_or_app; right; left; reflexivity).
      rewrite !popR_collinear by (intros; apply H; auto).
      replace (p :: rev pre) with (rev (pre ++ [p])) by (rewrite rev_app_distr; reflexivity).
      apply IH. rewrite <- app_assoc. exact E. }
  unfold hullR. pose proof (G l [] eq_refl) as E. change (rev []) with (@nil rv) in E. rewrite E. f_equal.
  destruct (rev l) as [|x m] eqn:Er.
  - assert (l = []) as -> by (rewrite <- (rev_involutive l), Er; reflexivity). reflexivity.
  - assert (l = rev m ++ [x]) as -> by (rewrite <- (rev_involutive l), Er; reflexivity).
    rewrite removelast_last. reflexivity.
Qed.

(** C30 *)
Lemma hull_collinear_repeats srt vs :
  sorts lessXY (map fv vs) (srt (map fv vs)) -> separated vs -> NoDup vs ->
  (forall a b c, In a vs -> In b vs -> In c vs -> ccw a b c = 0) ->
  exists ss h, Permutation vs ss /\ ConvexHull srt (map fv vs) = Ok (map fv h) /\
     h = removelast ss ++ removelast (rev ss) /\ StronglySorted lexlt ss.
Proof.
  intros Hsort Hsep Hnd Hcol.
  destruct (sorts_fv _ _ Hsort) as (ss & Hss & Hperm & Hsorted).
  assert (Hsep' : separated ss).
  { intros a b Ha Hb. apply Hsep; (eapply Permutation_in; [apply Permutation_sym, Hperm|auto]). }
  destruct (farR_sorted ss Hsep' Hsorted) as [S1 S2].
  assert (E : farR None ss = ss).
  { assert (Hnd' : NoDup ss) by (eapply Permutation_NoDup; eauto).
    clear -Hsep' Hnd'. destruct ss as [|q l]; [reflexivity|]. cbn [farR]. f_equal.
    revert q Hsep' Hnd'. induction l as [|p l IH]; intros q Hsep Hnd; [reflexivity|]. cbn [farR].
    apply NoDup_cons_iff in Hnd. destruct Hnd as [Hq Hnd].
    destruct (Hsep p q) as [_ Hd]; [simpl; auto..|intros ->; apply Hq; left; reflexivity|].
    destruct (Rltb_spec (rdist2 p q) epsR); [lra|]. f_equal. apply IH; auto.
    intros a b Ha Hb. apply Hsep; right; auto. }
  exists ss, (hullR ss). split; [exact Hperm|]. split; [rewrite <- E at 1; apply ConvexHull_fv; exact Hss|].
  split; [|rewrite <- E; exact S1]. apply hullR_collinear.
  intros; apply Hcol; (eapply Permutation_in; [apply Permutation_sym, Hperm|auto]).
Qed.

(** C29: chains of near points collapse *)
Lemma linked_trans vs a b c : linked vs a b -> linked vs b c -> linked vs a c.
Proof. intros H1 H2. revert H1. induction H2 as [|b c d H2 IH Hn]; intros H1; auto. apply (linked_step _ _ c); auto. Qed.
Lemma farR_linked vs q l : incl (q :: l) vs -> forall x, In x (q :: l) ->
  linked vs q x \/ exists z, In z (farR (Some q) l) /\ linked vs z x.
Proof.
  revert q. induction l as [|p l IH]; intros q Hi x Hx.
  - destruct Hx as [<-|[]]. left. constructor.
  - destruct Hx as [<-|Hx]; [left; constructor|].
    assert (Hi' : incl (p :: l) vs) by (intros y Hy; apply Hi; right; auto).
    cbn [farR]. destruct (Rltb_spec (rdist2 p q) epsR) as [Hn|Hf].
    + destruct (IH p Hi' x Hx) as [H|H]; auto.
      left. apply (linked_trans _ _ p); auto. econstructor; [constructor|].
      split; [apply Hi; left; auto|]. split; [apply Hi; right; left; auto|exact Hn].
    + right. destruct (IH p Hi' x Hx) as [H|(z & H1 & H2)].
      * exists p. split; [left; auto|exact H].
      * exists z. split; [right; auto|exact H2].
Qed.
Lemma farR_incl prev l : incl (farR prev l) l.
Proof.
  revert prev. induction l as [|p l IH]; intros prev x Hx; [exact Hx|].
  cbn [farR] in Hx. destruct (match prev with Some q => _ | None => _ end).
  - right. eapply IH; eauto.
  - destruct Hx as [->|Hx]; [left; auto|right; eapply IH; eauto].
Qed.
Lemma farR_strict_some q l : (forall a b, In a (q :: l) -> In b (q :: l) -> samexy a b -> a = b) ->
  StronglySorted (fun a b => ~ lexlt b a) (q :: l) ->
  StronglySorted lexlt (q :: farR (Some q) l).
Proof.
  revert q. induction l as [|p l IH]; intros q Hinj Hs.
  - constructor; constructor.
  - inversion Hs as [|? ? Hs' Hf]; subst. rewrite Forall_forall in Hf.
    assert (H := IH p (fun a b Ha Hb => Hinj a b (or_intror Ha) (or_intror Hb)) Hs').
    cbn [farR].
    assert (Hqp : p = q \/ lexlt q p).
    { destruct (lex_total p q) as [E|[E|E]]; auto.
      - left. apply Hinj; simpl; auto.
      - exfalso. apply (Hf p (or_introl eq_refl)); auto. }
    destruct (Rltb_spec (rdist2 p q) epsR) as [Hn|Hfar].
    + destruct Hqp as [->|Hqp]; [exact H|]. inversion H; subst. constructor; auto.
      eapply Forall_impl; [|eassumption]. intros z Hz. unfold lexlt in *. lra.
    + destruct Hqp as [->|Hqp].
      * rewrite rdist2_self in Hfar. pose proof epsR_pos. lra.
      * constructor; [exact H|]. constructor; [exact Hqp|]. inversion H; subst.
        eapply Forall_impl; [|eassumption]. intros z Hz. unfold lexlt in *. lra.
Qed.
Lemma hullR_single a : hullR [a] = [].
Proof. reflexivity. Qed.

Lemma convex_hull_near srt vs :
  sorts lessXY (map fv vs) (srt (map fv vs)) ->
  (forall a b, In a vs -> In b vs -> samexy a b -> a = b) ->
  exists h ds, ConvexHull srt (map fv vs) = Ok (map fv h) /\
    incl ds vs /\ incl h ds /\ encloses h ds /\
    (forall x, In x vs -> exists z, In z ds /\ linked vs z x).
Proof.
  intros Hsort Hinj.
  destruct (sorts_fv _ _ Hsort) as (ss & Hss & Hperm & Hsorted).
  assert (Hin : forall x, In x ss -> In x vs)
    by (intros; eapply Permutation_in; [apply Permutation_sym, Hperm|auto]).
  exists (hullR (farR None ss)), (farR None ss).
  split; [apply ConvexHull_fv; exact Hss|].
  split; [intros x Hx; apply Hin; eapply farR_incl; eauto|].
  assert (Hst : StronglySorted lexlt (farR None ss)).
  { destruct ss as [|q l]; [constructor|]. apply farR_strict_some; auto. }
  assert (Hlink : forall x, In x vs -> exists z, In z (farR None ss) /\ linked vs z x).
  { intros x Hx. assert (Hxs : In x ss) by (eapply Permutation_in; eauto).
    destruct ss as [|q l]; [destruct Hxs|].
    destruct (farR_linked vs q l Hin x Hxs) as [H|(z & H1 & H2)].
    - exists q. split; [left; auto|auto].
    - exists z. split; [right; auto|auto]. }
  destruct (farR None ss) as [|a [|b m]] eqn:E.
  - split; [intros ? []|]. split; [intros ? []|exact Hlink].
  - split; [intros ? []|]. split; [intros ? []|exact Hlink].
  - destruct (hullR_strict _ Hst) as (H1 & H2 & _); [simpl; lia|]. auto.
Qed.

Definition spaced (n : nat) : list rv := map (fun i => RV (INR i * / 134217728) 0 0) (seq 0 n).
Lemma spaced_sorted n : StronglySorted lexlt (spaced n).
Proof.
  unfold spaced. generalize 0%nat. induction n as [|n IH]; intros i; [constructor|].
  cbn [seq map]. constructor; [apply IH|]. rewrite Forall_forall. intros x Hx.
  apply in_map_iff in Hx. destruct Hx as (j & <- & Hj). apply in_seq in Hj.
  left. simpl. apply Rmult_lt_compat_r; [lra|]. apply lt_INR. lia.
Qed.
Lemma spaced_collapse n i : farR (Some (RV (INR i * / 134217728) 0 0))
  (map (fun i => RV (INR i * / 134217728) 0 0) (seq (S i) n)) = [].
Proof.
  revert i. induction n as [|n IH]; intros i; [reflexivity|]. cbn [seq map farR].
  unfold rdist2, rdot, rsub. cbn [rx ry rz]. rewrite S_INR.
  match goal with |- (if Rltb ?x epsR then _ else _) = _ => replace x with (/ 134217728 * / 134217728) by ring end.
  unfold epsR. destruct (Rltb_spec (/ 134217728 * / 134217728) (/ 4503599627370496)); [|lra].
  rewrite <- S_INR. apply IH.
Qed.
(** however far the points spread, the hull of such a chain is empty *)
Lemma hull_of_chain_empty D : exists vs srt p q,
  sorts lessXY (map fv vs) (srt (map fv vs)) /\ NoDup vs /\ In p vs /\ In q vs /\ D < rdist p q /\
  ConvexHull srt (map fv vs) = Ok [].
Proof.
  destruct (archimed (134217728 * Rabs D)) as [Hup _]. pose proof (Rabs_pos D) as HD.
  remember (Z.to_nat (up (134217728 * Rabs D))) as n eqn:En.
  assert (Hn : 134217728 * Rabs D < INR n).
  { rewrite En, INR_IZR_INZ, Z2Nat.id; [exact Hup|]. apply le_IZR. lra. }
  exists (spaced (S (S n))), (fun l => l), (RV (INR 0 * / 134217728) 0 0), (RV (INR (S n) * / 134217728) 0 0).
  pose proof (spaced_sorted (S (S n))) as Hs.
  split; [split; [apply Permutation_refl|]|].
  { clear -Hs. induction Hs as [|x l Hs IH Hf]; [constructor|]. simpl. constructor; auto.
    rewrite Forall_forall in *. intros y Hy. apply in_map_iff in Hy. destruct Hy as (z & <- & Hz).
    destruct (lessXY (fv z) (fv x)) eqn:E; auto. apply lessXY_fv in E. specialize (Hf z Hz).
    unfold lexlt in *. lra. }
  split.
  { clear -Hs. induction Hs as [|x l Hs IH Hf]; constructor; auto.
    rewrite Forall_forall in Hf. intros Hx. specialize (Hf x Hx). unfold lexlt in Hf. lra. }
  split; [left; reflexivity|].
  split; [apply in_map_iff; exists (S n); split; [reflexivity|apply in_seq; lia]|].
  split.
  { unfold rdist, rdist2, rdot, rsub. cbn [rx ry rz]. rewrite S_INR. change (INR 0) with 0.
    match goal with |- D < sqrt ?x => replace x with (Rsqr ((INR n + 1) * / 134217728)) by (unfold Rsqr; ring) end.
    pose proof (pos_INR n). rewrite sqrt_Rsqr by (apply Rmult_le_pos; lra).
    pose proof (Rle_abs D). lra. }
  rewrite (ConvexHull_fv _ _ (spaced (S (S n)))) by reflexivity.
  unfold spaced. cbn [seq map farR]. pose proof (spaced_collapse (S n) 0) as C. cbn [seq map] in C.
  change (RV (INR 0 * / 134217728) 0 0) with (RV (0 * / 134217728) 0 0) in *. cbn [farR] in C.
  cbn [INR] in *. setoid_rewrite C. reflexivity.
Qed.

(** C28 fails for points with equal X, Y and different Z *)
Definition stacked : list rv := [RV 0 0 0; RV 1 (-1) 0; RV 1 (-1) 5; RV 2 0 0].
Lemma stacked_hull : exists srt h,
  sorts lessXY (map fv stacked) (srt (map fv stacked)) /\
  (forall a b, In a stacked -> In b stacked -> a <> b -> 1 <= rdist2 a b) /\
  ConvexHull srt (map fv stacked) = Ok (map fv h) /\ ~ encloses h stacked.
Proof.
  exists (fun l => l), [RV 0 0 0; RV 1 (-1) 0; RV 1 (-1) 5; RV 2 0 0; RV 1 (-1) 5; RV 1 (-1) 0].
  split; [split; [apply Permutation_refl|]|].
  { assert (G : StronglySorted (fun a b => ~ lexlt b a) stacked).
    { unfold stacked. repeat constructor; unfold lexlt; simpl; lra. }
    clear -G. induction G as [|x l Hs IH Hf]; [constructor|]. simpl. constructor; auto.
    rewrite Forall_forall in *. intros y Hy. apply in_map_iff in Hy. destruct Hy as (z & <- & Hz).
    destruct (lessXY (fv z) (fv x)) eqn:E; auto. apply lessXY_fv in E. exfalso. apply (Hf z Hz E). }
  split.
  { intros a b Ha Hb Hne. unfold stacked in *. simpl in Ha, Hb.
    repeat (destruct Ha as [<-|Ha]); try destruct Ha;
    repeat (destruct Hb as [<-|Hb]); try destruct Hb; try congruence;
    unfold rdist2, rdot, rsub; simpl; lra. }
  split.
  - rewrite (ConvexHull_fv _ _ stacked) by reflexivity. do 2 f_equal.
    unfold stacked, hullR. cbn [farR].
    unfold rdist2, rdot, rsub, epsR; cbn [rx ry rz].
    repeat (match goal with |- context [Rltb ?a ?b] => destruct (Rltb_spec a b); [exfalso; lra|] end; cbn iota).
    cbn [fold_left hullStepR popR]. unfold ccw; cbn [rx ry rz].
    repeat (match goal with |- context [Rltb ?a ?b] =>
       first [replace (Rltb a b) with true by (destruct (Rltb_spec a b); [reflexivity|exfalso; lra])
             |replace (Rltb a b) with false by (destruct (Rltb_spec a b); [exfalso; lra|reflexivity])] end; cbn [popR]; unfold ccw; cbn [rx ry rz]).
    reflexivity.
  - intros H. specialize (H (RV 2 0 0, RV 1 (-1) 5) ltac:(simpl; auto 8) (RV 0 0 0) ltac:(simpl; auto)).
    unfold ccw in H; simpl in H. lra.
Qed.
