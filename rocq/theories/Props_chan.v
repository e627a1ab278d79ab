(** Property theorems C177: the lexer's channel of symbols. *)
From Coq Require Import Lia List Bool Arith Ascii.
From Verif Require Import Base M_step M_chan.
Import ListNotations.
Open Scope nat_scope.

Definition waiting (w : world) : list Symbol := chBuf (lSymbolsChan (wLexer w)).
Definition start (f : bytes) (l : list Symbol) (r : nat) : world := mkWorld (initLexer f) l r [].
(** nobody can go on *)
Definition stuck (w : world) : Prop := forall w', ~ step w w'.

(** emit returns exactly when fewer than two symbols are waiting, and then the symbol is the last one waiting *)
Definition fresh_like (l : Lexer) : Prop := chCap (lSymbolsChan l) = 2.
Theorem C177_emit (l : Lexer) s : fresh_like l ->
  match emit l s with
  | Some l' => length (chBuf (lSymbolsChan l)) < 2 /\ chBuf (lSymbolsChan l') = chBuf (lSymbolsChan l) ++ [s] /\ lFilename l' = lFilename l /\ fresh_like l'
  | None => 2 <= length (chBuf (lSymbolsChan l))
  end.
Proof.
  unfold fresh_like, emit, send. intros C. rewrite C. destruct (Nat.ltb_spec (length (chBuf (lSymbolsChan l))) 2) as [H|H]; cbn; auto.
Qed.
Print Assumptions C177_emit.

Definition inv (f : bytes) (l : list Symbol) (r n : nat) (w : world) : Prop :=
  wGot w ++ waiting w ++ wToSend w = l /\ length (waiting w) <= 2 /\ length (wGot w) + wToReceive w = r /\
  fresh_like (wLexer w) /\ lFilename (wLexer w) = f /\ n = 2 * length (wGot w) + length (waiting w).
Lemma inv_step f l r n w w' : inv f l r n w -> step w w' -> inv f l r (S n) w'.
Proof.
  intros (I1 & I2 & I3 & I4 & I5 & I6) St. destruct St as [x x' s p q g E|x c s p q g E]; unfold inv, waiting in *; cbn [wLexer wToSend wToReceive wGot] in *.
  - pose proof (C177_emit x s I4) as K. rewrite E in K. destruct K as (K1 & K2 & K3 & K4). rewrite K2, K3, app_length. cbn [length].
    split; [rewrite <- app_assoc; exact I1|]. split; [lia|]. split; [exact I3|]. split; [exact K4|]. split; [exact I5|lia].
  - unfold receive in E. destruct (chBuf (lSymbolsChan x)) as [|y b] eqn:B; [discriminate|]. injection E as <- <-. cbn [lSymbolsChan chBuf lFilename length] in *.
    rewrite app_length. cbn [length]. split; [rewrite <- app_assoc; exact I1|]. split; [lia|]. split; [lia|]. split; [exact I4|]. split; [exact I5|lia].
Qed.
Lemma inv_steps f l r m w w' : steps m w w' -> forall n, inv f l r n w -> inv f l r (m + n) w'.
Proof.
  induction 1 as [w|m w w' w'' St _ IH]; intros n I; [exact I|]. replace (S m + n) with (m + S n) by lia. apply IH. eapply inv_step; eauto.
Qed.
Lemma inv_start f l r : inv f l r 0 (start f l r).
Proof. unfold inv, waiting, start, fresh_like. cbn. repeat split; lia. Qed.

(** whatever the interleaving: what was received, what is waiting and what is still to be sent are together the symbols
    emitted, in the order they were emitted; never more than two are waiting *)
Theorem C177_order f l r n w : steps n (start f l r) w ->
  wGot w ++ waiting w ++ wToSend w = l /\ length (waiting w) <= 2 /\ length (wGot w) + wToReceive w = r /\ lFilename (wLexer w) = f.
Proof. intros S. destruct (inv_steps f l r n _ _ S 0 (inv_start f l r)) as (H1 & H2 & H3 & _ & H5 & _). auto. Qed.
Print Assumptions C177_order.

Lemma split_firstn {T} (a b c : list T) r : length a <= r -> (length a < r -> b = [] /\ c = []) -> firstn r (a ++ b ++ c) = a.
Proof.
  intros H K. destruct (Nat.eq_dec (length a) r) as [<-|N].
  - rewrite firstn_app, Nat.sub_diag, firstn_all. cbn. apply app_nil_r.
  - destruct K as (-> & ->); [lia|]. rewrite !app_nil_r. apply firstn_all2. exact H.
Qed.
(** every run comes to rest, and the schedule does not matter: the receiver has got the first r symbols, the next two are
    waiting, and the emitter is blocked for ever exactly when there were more than r + 2 symbols *)
Theorem C177_rest f l r n w : steps n (start f l r) w ->
  n <= 2 * length l /\
  (stuck w <-> wGot w = firstn r l /\ waiting w = firstn 2 (skipn r l) /\ wToSend w = skipn (r + 2) l) /\
  (stuck w -> (wToSend w <> [] <-> r + 2 < length l) /\ (wToReceive w <> 0 <-> length l < r)).
Proof.
  intros S. destruct (inv_steps f l r n _ _ S 0 (inv_start f l r)) as (H1 & H2 & H3 & H4 & H5 & H6).
  assert (Len : length (wGot w) + (length (waiting w) + length (wToSend w)) = length l) by (rewrite <- H1, !app_length; lia).
  assert (St : stuck w <-> (wToReceive w = 0 \/ waiting w = []) /\ (wToSend w = [] \/ length (waiting w) = 2)).
  { destruct w as [x p q g]. unfold waiting in *. cbn [wLexer wToSend wToReceive wGot] in *. split.
    - intros K. split.
      + destruct q as [|q]; [left; reflexivity|right]. destruct (chBuf (lSymbolsChan x)) as [|y b] eqn:B; [reflexivity|exfalso].
        eapply K, step_recv. unfold receive. rewrite B. reflexivity.
      + destruct p as [|s p]; [left; reflexivity|right]. pose proof (C177_emit x s H4) as E. destruct (emit x s) as [x'|] eqn:Q; [|lia].
        exfalso. eapply K, step_emit. exact Q.
    - intros (K1 & K2) w' T. inversion T as [x0 x' s p0 r0 g0 E|x0 c s p0 r0 g0 E]; subst.
      + pose proof (C177_emit x s H4) as Q. rewrite E in Q. destruct K2 as [K2|K2]; [discriminate|]. lia.
      + destruct K1 as [K1|K1]; [discriminate|]. unfold receive in E. rewrite K1 in E. discriminate. }
  split; [lia|]. split; [split|].
  - intros K. apply St in K. destruct K as (K1 & K2).
    assert (G : wGot w = firstn r l).
    { rewrite <- H1. symmetry. apply split_firstn; [lia|]. intros L. destruct K1 as [K1|K1]; [lia|]. destruct K2 as [K2|K2]; [auto|]. rewrite K1 in K2. discriminate. }
    assert (R : waiting w ++ wToSend w = skipn r l).
    { apply (app_inv_head (wGot w)). rewrite G at 2. rewrite firstn_skipn. exact H1. }
    split; [exact G|]. assert (E2 : skipn (r + 2) l = skipn 2 (skipn r l)) by (clear; revert l; induction r as [|r IH]; intros [|y l]; try reflexivity; cbn [Nat.add skipn]; apply IH).
    rewrite E2, <- R. destruct K2 as [K2|K2].
    + rewrite K2, app_nil_r. split; [symmetry; apply firstn_all2; exact H2|symmetry; apply skipn_all2; exact H2].
    + rewrite <- K2. split; [now rewrite firstn_app, Nat.sub_diag, firstn_all, app_nil_r|now rewrite skipn_app, Nat.sub_diag, skipn_all].
  - intros (G & W & T). apply St.
    apply (f_equal (@length _)) in G, W. apply (f_equal (@length _)) in T as T'. rewrite firstn_length in G. rewrite firstn_length, skipn_length in W. rewrite skipn_length in T'.
    split.
    + destruct (waiting w); [right; reflexivity|left]. cbn [length] in *. lia.
    + destruct (wToSend w); [left; reflexivity|right]. cbn [length] in *. lia.
  - intros K. apply St in K. destruct K as (K1 & K2).
    assert (L0 : forall T (x : list T), x <> [] <-> length x <> 0) by (intros T [|]; cbn; split; intros; congruence || lia).
    rewrite L0. assert (W0 : waiting w = [] -> length (waiting w) = 0) by (intros ->; reflexivity).
    assert (S0 : wToSend w = [] -> length (wToSend w) = 0) by (intros ->; reflexivity).
    split; split; intros Q; destruct K1 as [K1|K1]; try specialize (W0 K1); destruct K2 as [K2|K2]; try specialize (S0 K2); lia.
Qed.
Print Assumptions C177_rest.

(** without a receiver (nothing in the repository receives): two symbols get through, the third emit never returns *)
Fixpoint emitAll (l : Lexer) (ss : list Symbol) : option Lexer :=
  match ss with [] => Some l | s :: ss => match emit l s with Some l' => emitAll l' ss | None => None end end.
Theorem C177_alone f ss :
  match emitAll (initLexer f) ss with
  | Some l => length ss <= 2 /\ chBuf (lSymbolsChan l) = ss /\ lFilename l = f
  | None => 2 < length ss
  end.
Proof.
  destruct ss as [|a [|b [|c ss]]]; cbn; [auto..|lia].
Qed.
Print Assumptions C177_alone.

Definition sym (k : nat) : Symbol := mkSymbol [ascii_of_nat k] (mkDef [] []).
Example C177_nonvacuous : exists w n, steps n (start [] [sym 1; sym 2; sym 3; sym 4] 1) w /\ stuck w /\
  wGot w = [sym 1] /\ waiting w = [sym 2; sym 3] /\ wToSend w = [sym 4].
Proof.
  assert (S : steps 4 (start [] [sym 1; sym 2; sym 3; sym 4] 1) (mkWorld (mkLexer [] (mkChan 2 [sym 2; sym 3])) [sym 4] 0 [sym 1])).
  { eapply steps_more; [apply step_emit; reflexivity|]. eapply steps_more; [apply step_emit; reflexivity|].
    eapply steps_more; [apply step_recv; reflexivity|]. eapply steps_more; [apply step_emit; reflexivity|]. apply steps_none. }
  eexists _, 4. split; [exact S|]. split; [apply (C177_rest _ _ _ _ _ S); repeat split|repeat split].
Qed.
