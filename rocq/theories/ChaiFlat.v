(** What a program reads under the protocol does not depend on the spaces. *)
From Coq Require Import List Arith Lia Bool.
From Verif Require Import Base BaseProofs Chai ChaiSpec ChaiProofs.
Import ListNotations.
Set Implicit Arguments.
Unset Strict Implicit.

Section Flat.
Variable V : Type.
Variable n : nat.

Definition FR (st : sstate V) (f : flat V) : Prop :=
  length (fst f) = length (s_arrs st) /\ snd f = map h_arr (s_hs st) /\
  forall i a, nth_error (s_arrs st) i = Some (Some a) -> nth_error (fst f) i = Some (l_vals a).

Lemma put_len A (l : list A) i x : i < length l -> length (put l i x) = length l.
Proof. intros H. rewrite put_upd by exact H. apply upd_length. Qed.
Lemma nth_put A (l : list A) i j x : i < length l -> nth_error (put l i x) j = if i =? j then Some x else nth_error l j.
Proof. intros H. rewrite put_upd by exact H. apply nth_upd. exact H. Qed.
Lemma map_put A B (g : A -> B) l i x : map g (put l i x) = put (map g l) i (g x).
Proof. unfold put. rewrite map_app. cbn [map]. rewrite firstn_map, skipn_map. reflexivity. Qed.
Lemma put_same A (l : list A) i x : nth_error l i = Some x -> put l i x = l.
Proof. intros H. rewrite put_upd by (eapply nth_lt; exact H). revert i H. induction l as [|y l IH]; intros [|i] H; cbn in *; try discriminate; [congruence|f_equal; auto]. Qed.

(** Only the arrays' space changes, or their touch. *)
Lemma FR_put st f i a a' hs : FR st f -> nth_error (s_arrs st) i = Some (Some a) -> l_vals a' = l_vals a -> map h_arr hs = map h_arr (s_hs st) ->
  FR (mkS (put (s_arrs st) i (Some a')) hs) f.
Proof.
  intros (F1 & F2 & F3) Ha Ev Eh. pose proof (nth_lt Ha) as Li. split; [cbn; rewrite put_len by exact Li; exact F1|]. split; [cbn; congruence|].
  intros j aj Hj. cbn [s_arrs] in Hj. rewrite nth_put in Hj by exact Li. destruct (Nat.eqb_spec i j) as [->|Nj]; [|apply F3; exact Hj].
  injection Hj as <-. rewrite Ev. apply F3. exact Ha.
Qed.
Lemma FR_move st f m s touch st' : FR st f -> spec_move n st m s touch = Some st' -> FR st' f.
Proof.
  intros HF E. unfold spec_move in E. destruct (nth_error (s_hs st) m) as [h|] eqn:Hh; [|discriminate].
  destruct s as [s|]; [|injection E as <-; exact HF]. destruct (h_arr h) as [i|] eqn:Hi; [|injection E as <-; exact HF].
  destruct (arr_of st h) as [[i' a]|] eqn:Ea; [|discriminate]. apply arr_of_inv in Ea. destruct Ea as [Hi' Ha].
  assert (Hm : forall s', map h_arr (put (s_hs st) m (mkH (Some i) s' (h_const h))) = map h_arr (s_hs st)).
  { intros s'. rewrite map_put. apply put_same. rewrite nth_error_map, Hh. cbn. rewrite Hi. reflexivity. }
  destruct (l_vals a) as [|v vs] eqn:Ev; [injection E as <-; exact HF|]. destruct (l_cur a) as [c|]; [|discriminate].
  destruct (c =? s); [injection E as <-; eapply FR_put; eauto|]. destruct (_ && _)%bool; [|discriminate]. injection E as <-. eapply FR_put; eauto.
Qed.

Lemma flat_refines o st f st' x : FR st f -> spec_step n o st = Some (st', x) -> exists f', flat_step o f = Some (f', x) /\ FR st' f'.
Proof.
  intros HF E. pose proof HF as (F1 & F2 & F3). destruct f as [arrs hs]. cbn [fst snd] in *.
  assert (At : forall m h, nth_error (s_hs st) m = Some h -> nth_error hs m = Some (h_arr h)).
  { intros m h H. rewrite F2, nth_error_map, H. reflexivity. }
  assert (Keep : forall hs', hs' = s_hs st -> FR (mkS (s_arrs st) hs') (arrs, map h_arr hs')).
  { intros hs' ->. split; [exact F1|]. split; [reflexivity|exact F3]. }
  assert (Keep' : forall hs', FR (mkS (s_arrs st) hs') (arrs, map h_arr hs')).
  { intros hs'. split; [exact F1|]. split; [reflexivity|exact F3]. }
  destruct o as [|h es|h|h|d s|d s|h s touch|h s|h size s cap|h|h i s v|h i s]; cbn [spec_step flat_step] in *.
  - injection E as <- <-. eexists. split; [reflexivity|]. split; [cbn; rewrite !app_length, F1; reflexivity|]. split; [cbn; rewrite map_app, F2, F1; reflexivity|].
    cbn [s_arrs fst]. intros i a H. destruct (Nat.lt_ge_cases i (length (s_arrs st))) as [Lt|Ge].
    + rewrite nth_app_lt in H by exact Lt. rewrite nth_app_lt by lia. apply F3. exact H.
    + assert (i = length (s_arrs st)) as ->. { apply nth_lt in H. rewrite app_length in H. cbn in H. lia. }
      rewrite nth_app_last in H. injection H as <-. rewrite <- F1. apply nth_app_last.
  - destruct (nth_error (s_hs st) h) as [hh|] eqn:Hh; [|discriminate]. rewrite (At _ _ Hh). destruct (spec_move _ _ _ _ _) as [st1|] eqn:Em; [|discriminate]. injection E as <- <-.
    eexists. split; [reflexivity|]. eapply FR_move; [|exact Em]. split; [exact F1|]. split; [cbn; rewrite map_app, F2; reflexivity|exact F3].
  - destruct (nth_error (s_hs st) h) as [hh|] eqn:Hh; [|discriminate]. rewrite (At _ _ Hh). injection E as <- <-.
    eexists. split; [reflexivity|]. split; [exact F1|]. split; [cbn; rewrite map_app, F2; reflexivity|exact F3].
  - destruct (nth_error (s_hs st) h) as [hh|] eqn:Hh; [|discriminate]. rewrite (At _ _ Hh). injection E as <- <-.
    eexists. split; [reflexivity|]. split; [exact F1|]. split; [cbn; rewrite map_app, map_put, F2; reflexivity|exact F3].
  - destruct (nth_error (s_hs st) d) as [hd|] eqn:Hd; [|discriminate]. destruct (nth_error (s_hs st) s) as [hss|] eqn:Hs; [|discriminate]. rewrite (At _ _ Hs).
    destruct (eqb _ _); [|discriminate]. injection E as <- <-. eexists. split; [reflexivity|]. split; [exact F1|]. split; [cbn; rewrite map_put, F2; reflexivity|exact F3].
  - destruct (nth_error (s_hs st) d) as [hd|] eqn:Hd; [|discriminate]. destruct (nth_error (s_hs st) s) as [hss|] eqn:Hs; [|discriminate]. rewrite (At _ _ Hs).
    destruct (eqb _ _); [|discriminate]. injection E as <- <-. eexists. split; [reflexivity|]. split; [exact F1|]. split; [cbn; rewrite !map_put, F2; reflexivity|exact F3].
  - destruct (spec_move _ _ _ _ _) as [st1|] eqn:Em; [|discriminate]. injection E as <- <-. eexists. split; [reflexivity|]. eapply FR_move; eauto.
  - destruct (nth_error (s_hs st) h) as [hh|] eqn:Hh; [|discriminate]. destruct (arr_of st hh) as [[i a]|] eqn:Ha; [|discriminate]. apply arr_of_inv in Ha.
    destruct (eqo (l_cur a) s); [|discriminate]. injection E as <- <-. eexists. split; [reflexivity|]. eapply FR_put; [exact HF|exact (proj2 Ha)|reflexivity|reflexivity].
  - destruct (nth_error (s_hs st) h) as [hh|] eqn:Hh; [|discriminate]. destruct (arr_of st hh) as [[i a]|] eqn:Ha; [|discriminate]. apply arr_of_inv in Ha. destruct Ha as [Hi Ha].
    match type of E with (if ?b then _ else _) = _ => destruct b; [|discriminate] end. injection E as <- <-. rewrite (At _ _ Hh), Hi, (F3 _ _ Ha).
    pose proof (nth_lt Ha) as Li. eexists. split; [reflexivity|]. split; [cbn; rewrite !app_length, put_len by exact Li; rewrite F1; reflexivity|].
    split; [cbn; rewrite map_put, F2, F1; reflexivity|]. cbn [s_arrs fst]. intros j aj Hj. destruct (Nat.lt_ge_cases j (length (s_arrs st))) as [Lt|Ge].
    + rewrite nth_app_lt in Hj by (rewrite put_len by exact Li; exact Lt). rewrite nth_put in Hj by exact Li. destruct (i =? j); [discriminate|].
      rewrite nth_app_lt by lia. apply F3. exact Hj.
    + assert (j = length (put (s_arrs st) i None)) as ->. { apply nth_lt in Hj. rewrite app_length in Hj. rewrite put_len in * by exact Li. cbn in Hj. lia. }
      rewrite nth_app_last in Hj. injection Hj as <-. cbn [l_vals]. rewrite put_len by exact Li. rewrite <- F1. apply nth_app_last.
  - destruct (nth_error (s_hs st) h) as [hh|] eqn:Hh; [|discriminate]. destruct (arr_of st hh) as [[i a]|] eqn:Ha; [|discriminate]. apply arr_of_inv in Ha. destruct Ha as [Hi Ha].
    injection E as <- <-. pose proof (nth_lt Ha) as Li. eexists. split; [reflexivity|]. split; [cbn; rewrite put_len by exact Li; exact F1|]. split; [cbn; rewrite map_put, F2; reflexivity|].
    cbn [s_arrs fst]. intros j aj Hj. rewrite nth_put in Hj by exact Li. destruct (i =? j); [discriminate|]. apply F3. exact Hj.
  - destruct (nth_error (s_hs st) h) as [hh|] eqn:Hh; [|discriminate]. destruct (arr_of st hh) as [[k a]|] eqn:Ha; [|discriminate]. apply arr_of_inv in Ha. destruct Ha as [Hi Ha].
    match type of E with (if ?b then _ else _) = _ => destruct b; [|discriminate] end. injection E as <- <-. rewrite (At _ _ Hh), Hi, (F3 _ _ Ha).
    pose proof (nth_lt Ha) as Li. eexists. split; [reflexivity|]. split; [cbn; rewrite !put_len by lia; exact F1|]. split; [exact F2|].
    cbn [s_arrs fst]. intros j aj Hj. rewrite nth_put in Hj by exact Li. rewrite nth_put by lia. destruct (k =? j); [injection Hj as <-; reflexivity|]. apply F3. exact Hj.
  - destruct (nth_error (s_hs st) h) as [hh|] eqn:Hh; [|discriminate]. destruct (arr_of st hh) as [[k a]|] eqn:Ha; [|discriminate]. apply arr_of_inv in Ha. destruct Ha as [Hi Ha].
    match type of E with (if ?b then _ else _) = _ => destruct b; [|discriminate] end. rewrite (At _ _ Hh), Hi, (F3 _ _ Ha).
    destruct (nth_error (l_vals a) i) as [[v|]|]; try discriminate. injection E as <- <-. eexists. split; [reflexivity|exact HF].
Qed.

Theorem run_flat l : forall st f st' ys, FR st f -> spec_run n l st = Some (st', ys) -> flat_run l f = Some ys.
Proof.
  induction l as [|o l IH]; intros st f st' ys HF E; cbn [spec_run flat_run] in *.
  - injection E as _ <-. reflexivity.
  - destruct (spec_step n o st) as [[st1 x]|] eqn:E1; [|discriminate]. destruct (spec_run n l st1) as [[st2 zs]|] eqn:E2; [|discriminate]. injection E as <- <-.
    destruct (flat_refines HF E1) as (f' & Ef & HF'). rewrite Ef. rewrite (IH _ _ _ _ HF' E2). reflexivity.
Qed.
End Flat.
