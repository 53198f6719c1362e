(** resizeArray with forwarded arguments. *)
From Coq Require Import List Arith ZArith Lia Bool.
From Verif Require Import Base BaseProofs Mem MemProofs ArrayManipProofs BufferManip BufferManipProofs AoA AoASpec AoALayout AoAProofs AoAProofs2 AoAProofs3 AoAProofs4 Forward.
From Verif Require ArrayManip.
Import ListNotations.
Set Implicit Arguments.
Unset Strict Implicit.

(** The values constructed one after the other, and what remains. *)
Definition forwarded {V} (mv : V -> V) (v : V) (k : nat) : list V := map (fun j => Nat.iter j mv v) (seq 0 k).

Section F.
Variable V : Type.
Variable mv : V -> V.
Variable triv : bool.
Notation LVs := (map (@LV V)).

Lemma forwarded_S v k : forwarded mv v (S k) = forwarded mv v k ++ [Nat.iter k mv v].
Proof. unfold forwarded. rewrite seq_S, map_app. reflexivity. Qed.
Lemma forwarded_length v k : length (forwarded mv v k) = k.
Proof. unfold forwarded. rewrite map_length, seq_length. reflexivity. Qed.

Lemma fwd_run_ok b p s v n start base :
  mem triv b (p ++ repeat LN n ++ s) -> base + start = length p ->
  oks (for_up n (fun i '(b, x) => b' <- construct triv b (base + i) x ;; Ok (b', mv x)) start (b, v))
      (fun r => mem triv (fst r) (p ++ LVs (forwarded mv v n) ++ s) /\ snd r = Nat.iter n mv v).
Proof.
  intros H E. eapply oks_mono.
  - apply oks_for_up with
      (I := fun k r => mem triv (fst r) (p ++ LVs (forwarded mv v (k - start)) ++ repeat LN (n - (k - start)) ++ s) /\ snd r = Nat.iter (k - start) mv v).
    + rewrite Nat.sub_diag, Nat.sub_0_r. simpl. auto.
    + intros k [b' x] Hk [M X]. simpl in M, X. subst x. remember (k - start) as j.
      replace (n - j) with (S (n - j - 1)) in M by lia. simpl repeat in M.
      eapply oks_bind.
      * eapply construct_ok with (p := p ++ LVs (forwarded mv v j)) (c := LN) (s := repeat LN (n - j - 1) ++ s).
        -- eapply mem_cast; [exact M|]. lapp; auto.
        -- rewrite app_length, map_length, forwarded_length. lia.
        -- simpl; auto.
      * intros b2 M2. apply oks_ok. simpl. replace (k + 1 - start) with (S j) by lia. split; [|reflexivity].
        eapply mem_cast; [exact M2|]. rewrite forwarded_S, map_app. replace (n - S j) with (n - j - 1) by lia. lapp; auto.
  - intros [b' x] [M X]. simpl in *. replace (n + start - start) with n in * by lia. replace (start + n - start) with n in * by lia. rewrite Nat.sub_diag in M. simpl in M. auto.
Qed.
End F.

Section FA.
Variable V W : Type.
Variable mv : V -> V.
Variable chk tv tw : bool.
Variable fw : V -> W.
Notation kind := BMalloc.
Notation idv := (fun v : V => v).
Notation aok := (@aok V V W idv fw tv tw false).
Notation allt := (allt tv tw false).
Notation LVs := (map (@LV V)).

Lemma resizeArray_fwd_ok (a : aoa V W) A r k B n v : aok a (A ++ (r, k) :: B) ->
  okb (allt || nogap (A ++ (r, k) :: B) || (n <=? length r + k)) (resizeArray_fwd mv chk tv tw false kind a (length A) n v)
      (fun x => aok (fst x) (A ++ (firstn n r ++ forwarded mv v (n - length r), Nat.max (length r + k) n - n) :: B) /\
                snd x = Nat.iter (n - length r) mv v).
Proof.
  intros H. pose proof H as [I E]. unfold resizeArray_fwd. rewrite (row_check chk I). cbn [bind].
  rewrite (capacityOf_at chk I (row_nth A (r, k) B)). cbn [bind]. unfold wid. cbn [fst snd].
  eapply okb_bind with (P := fun a1 => aok a1 (A ++ (r, Nat.max (length r + k) n - length r) :: B)).
  - destruct (Nat.ltb_spec (length r + k) n).
    + replace (n <=? length r + k) with false by (symmetry; apply Nat.leb_gt; lia). rewrite orb_false_r.
      eapply okb_mono; [eapply setCapacity_ok; [exact H|reflexivity]|]. intros a' A'.
      rewrite firstn_all2 in A' by lia. rewrite Nat.max_r by lia. exact A'.
    + left. apply oks_ok. rewrite Nat.max_l by lia. replace (length r + k - length r) with k by lia. exact H.
  - clear H I E. intros a1 H. pose proof H as [I E]. left.
    rewrite (row_size chk I). cbn [bind]. rewrite (row_check chk I). cbn [bind]. rewrite (row_off I). cbn [bind].
    destruct (aok_row H) as [q M]. set (K := Nat.max (length r + k) n) in *.
    set (r' := firstn n r ++ forwarded mv v (n - length r)).
    assert (LR : length r' = n) by (unfold r'; rewrite app_length, firstn_length, forwarded_length; lia).
    assert (Q : exists b, resize_fwd mv tv (vals a1) (length (flat idv A)) (length r) n v = Ok (b, Nat.iter (n - length r) mv v) /\
                mem tv b (flat idv A ++ LVs r' ++ repeat LN (K - n) ++ flat idv B ++ repeat LN q)).
    { unfold resize_fwd. destruct (Nat.le_gt_cases (length r) n) as [Hn|Hn].
      - replace (length r - n) with 0 by lia. cbn [ArrayManip.destroy for_up bind].
        assert (Z : ArrayManip.destroy tv (vals a1) (length (flat idv A) + n) 0 = Ok (vals a1)) by reflexivity. try rewrite Z. cbn [bind].
        destruct (@fwd_run_ok V mv tv (vals a1) (flat idv A ++ LVs r) (repeat LN (K - n) ++ flat idv B ++ repeat LN q) v (n - length r) (length r) (length (flat idv A)))
          as ([b x] & Eb & Mb & Ex).
        + eapply mem_cast; [exact M|]. lapp. f_equal. f_equal. rewrite !app_assoc, <- repeat_app_add. do 3 f_equal. lia.
        + rewrite app_length, map_length. reflexivity.
        + simpl in Mb, Ex. subst x. exists b. split; [exact Eb|]. eapply mem_cast; [exact Mb|]. unfold r'. rewrite firstn_all2 by lia. rewrite map_app. lapp. reflexivity.
      - replace (n - length r) with 0 by lia. set (us := firstn n r). set (ws := skipn n r).
        assert (Er : r = us ++ ws) by (symmetry; apply firstn_skipn).
        assert (Lu : length us = n) by (unfold us; rewrite firstn_length; lia).
        pose proof (f_equal (@length V) Er) as Ql. rewrite app_length in Ql.
        destruct (@destroy_ok V tv (vals a1) (flat idv A ++ LVs us) (LVs ws) (repeat LN (K - length r) ++ flat idv B ++ repeat LN q) (length (flat idv A) + n) (length r - n)) as (b & Eb & Mb).
        + eapply mem_cast; [exact M|]. rewrite Er at 1. rewrite map_app. lapp. reflexivity.
        + len.
        + len.
        + auto.
        + exists b. rewrite Eb. cbn [bind]. split; [reflexivity|]. eapply mem_cast; [exact Mb|]. unfold r'. fold us. replace (n - length r) with 0 by lia. cbn [forwarded seq map]. unfold forwarded. simpl.
          rewrite app_nil_r. lapp. do 2 f_equal. rewrite app_assoc, <- repeat_app_add. do 2 f_equal. lia. }
    destruct Q as (b & Eb & Mb). rewrite Eb. cbn [bind].
    eapply oks_bind.
    + rewrite <- LR at 1. eapply row_put with (k' := K - n) (tw := tw) (fw := fw); [exact I|exact Mb|lia|auto].
    + intros a2 H2. apply oks_ok. simpl. auto.
Qed.
End FA.
