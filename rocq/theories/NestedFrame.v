(** Operations of the ChaiBuffer model on one handle do not look at the other handles. *)
From Coq Require Import List Arith Lia Bool.
From Verif Require Import Base BaseProofs Chai ChaiSpec ChaiProofs Nested.
Import ListNotations.
Set Implicit Arguments.
Unset Strict Implicit.

Section Frame.
Variable V : Type.
Variable n : nat.
Notation world := (world V).
Implicit Types (w : world) (hs : list cbuf).

Lemma alloc_rebuf hs w ri s : manager_allocate (rebuf hs w) ri s =
  match manager_allocate w ri s with Ok (w', b) => Ok (rebuf hs w', b) | Abort => Abort | Fault f => Fault f end.
Proof.
  unfold manager_allocate. cbn [rebuf w_blocks w_recs w_bufs]. destruct (live (w_recs w) ri) as [r| |]; cbn [bind]; try reflexivity.
  destruct (aset (r_ptrs r) s _); cbn [bind]; try reflexivity. destruct (aset (w_recs w) ri _); cbn [bind]; reflexivity.
Qed.
Lemma free_rebuf hs w ri : manager_free (rebuf hs w) ri =
  match manager_free w ri with Ok w' => Ok (rebuf hs w') | Abort => Abort | Fault f => Fault f end.
Proof.
  unfold manager_free. cbn [rebuf w_blocks w_recs w_bufs]. destruct (live (w_recs w) ri) as [r| |]; cbn [bind]; try reflexivity.
  destruct (free_blocks _ _); cbn [bind]; try reflexivity. destruct (aset (w_recs w) ri _); cbn [bind]; reflexivity.
Qed.
Lemma move_rebuf hs w ri s : manager_move n (rebuf hs w) ri s =
  match manager_move n w ri s with Ok (w', b) => Ok (rebuf hs w', b) | Abort => Abort | Fault f => Fault f end.
Proof.
  unfold manager_move. cbn [rebuf w_blocks w_recs w_bufs]. destruct (live (w_recs w) ri) as [r| |]; cbn [bind]; try reflexivity.
  destruct (nonnull (r_last r)) as [l| |]; cbn [bind]; try reflexivity.
  destruct (l =? s).
  - destruct (aget (r_ptrs r) s) as [p| |]; cbn [bind]; try reflexivity. destruct (nonnull p); cbn [bind]; reflexivity.
  - destruct (aget (r_ptrs r) s) as [p| |]; cbn [bind]; try reflexivity.
    assert (E : match p with Some b => Ok (rebuf hs w, b) | None => manager_allocate (rebuf hs w) ri s end =
      match match p with Some b => Ok (w, b) | None => manager_allocate w ri s end with Ok (w', b) => Ok (rebuf hs w', b) | Abort => Abort | Fault f => Fault f end).
    { destruct p; [reflexivity|]. exact (alloc_rebuf hs w ri s). }
    rewrite E. clear E. destruct (match p with Some b => Ok (w, b) | None => manager_allocate w ri s end) as [[w1 b]| |]; cbn [bind rebuf w_blocks w_recs w_bufs]; try reflexivity.
    destruct (live (w_recs w1) ri) as [r1| |]; cbn [bind]; try reflexivity.
    destruct (aget (r_touched r1) l) as [[|]| |]; cbn [bind]; try reflexivity.
    destruct (aget (r_ptrs r1) l) as [q| |]; cbn [bind]; try reflexivity.
    destruct (nonnull q) as [src| |]; cbn [bind]; try reflexivity.
    destruct (live (w_blocks w1) src) as [sb| |]; cbn [bind]; try reflexivity.
    destruct (live (w_blocks w1) b) as [db| |]; cbn [bind]; try reflexivity.
    destruct (aset (w_blocks w1) b _) as [bs| |]; cbn [bind]; try reflexivity.
    destruct (aset (w_recs w1) ri _) as [rs| |]; cbn [bind]; reflexivity.
Qed.

Lemma aget_last hs c : aget (hs ++ [c]) (length hs) = Ok c.
Proof. unfold aget. rewrite nth_app_last. reflexivity. Qed.
Lemma aset_last hs c c' : aset (hs ++ [c]) (length hs) c' = Ok (hs ++ [c']).
Proof. rewrite aset_ok by (rewrite app_length; cbn; lia). rewrite upd_app_last. reflexivity. Qed.

Definition lift (hs : list cbuf) (m : outcome world) : outcome world :=
  match m with Ok w => Ok (rebuf (hs ++ w_bufs w) w) | Abort => Abort | Fault f => Fault f end.

Lemma rebuf_rebuf hs hs' w : rebuf hs (rebuf hs' w) = rebuf hs w.
Proof. reflexivity. Qed.
Lemma rebuf_id w : rebuf (w_bufs w) w = w.
Proof. destruct w. reflexivity. Qed.

Lemma frame_move hs c w s t : chai_move n (rebuf (hs ++ [c]) w) (length hs) s t = lift hs (chai_move n (rebuf [c] w) 0 s t).
Proof.
  unfold chai_move. cbn [rebuf w_blocks w_recs w_bufs]. rewrite aget_last. cbn [aget nth_error bind].
  destruct s as [s|]; [|reflexivity]. destruct (c_rec c) as [ri|]; [|reflexivity]. destruct (c_cap c =? 0); [reflexivity|].
  rewrite !move_rebuf.
  destruct (manager_move n w ri s) as [[w1 b]| |]; cbn [bind rebuf w_blocks w_recs w_bufs lift]; try reflexivity.
  destruct (live (w_recs w1) ri) as [r| |]; cbn [bind lift]; try reflexivity.
  destruct (if (negb (c_const c) && t)%bool then aset (r_touched r) s true else Ok (r_touched r)) as [ts| |]; cbn [bind lift]; try reflexivity.
  destruct (aset (w_recs w1) ri _) as [rs| |]; cbn [bind lift]; try reflexivity.
  unfold set_buf. cbn [w_blocks w_recs w_bufs]. rewrite aset_last. reflexivity.
Qed.
Lemma frame_touch hs c w s : chai_touch (rebuf (hs ++ [c]) w) (length hs) s = lift hs (chai_touch (rebuf [c] w) 0 s).
Proof.
  unfold chai_touch. cbn [rebuf w_blocks w_recs w_bufs]. rewrite aget_last. cbn [aget nth_error bind].
  destruct (nonnull (c_rec c)) as [ri| |]; cbn [bind lift]; try reflexivity.
  destruct (live (w_recs w) ri) as [r| |]; cbn [bind lift]; try reflexivity.
  destruct (aset (r_touched r) s true) as [ts| |]; cbn [bind lift]; try reflexivity.
  destruct (aset (w_recs w) ri _) as [rs| |]; cbn [bind lift]; reflexivity.
Qed.
Lemma frame_free hs c w : chai_free (rebuf (hs ++ [c]) w) (length hs) = lift hs (chai_free (rebuf [c] w) 0).
Proof.
  unfold chai_free. cbn [rebuf w_blocks w_recs w_bufs]. rewrite aget_last. cbn [aget nth_error bind].
  destruct (nonnull (c_rec c)) as [ri| |]; cbn [bind lift]; try reflexivity.
  rewrite !free_rebuf.
  destruct (manager_free w ri) as [w1| |]; cbn [bind lift]; try reflexivity.
  unfold set_buf. cbn [rebuf w_blocks w_recs w_bufs]. rewrite aset_last. reflexivity.
Qed.
Lemma frame_write hs c w i s v : chai_write (rebuf (hs ++ [c]) w) (length hs) i s v = lift hs (chai_write (rebuf [c] w) 0 i s v).
Proof.
  unfold chai_write. cbn [rebuf w_blocks w_recs w_bufs]. rewrite aget_last. cbn [aget nth_error bind].
  destruct (nonnull (c_ptr c)) as [p| |]; cbn [bind lift]; try reflexivity.
  destruct (live (w_blocks w) p) as [b| |]; cbn [bind lift]; try reflexivity.
  destruct (k_space b =? s); cbn [bind lift]; try reflexivity.
  destruct (aset (k_data b) i _) as [d| |]; cbn [bind lift]; try reflexivity.
  destruct (aset (w_blocks w) p _) as [bs| |]; cbn [bind lift]; reflexivity.
Qed.
Lemma frame_read hs c w i s : chai_read (rebuf (hs ++ [c]) w) (length hs) i s = chai_read (rebuf [c] w) 0 i s.
Proof. unfold chai_read. cbn [rebuf w_blocks w_recs w_bufs]. rewrite aget_last. reflexivity. Qed.

Lemma frame_realloc hs c w size s cap :
  chai_reallocate n (rebuf (hs ++ [c]) w) (length hs) size s cap = lift hs (chai_reallocate n (rebuf [c] w) 0 size s cap).
Proof.
  unfold chai_reallocate. cbn [rebuf w_blocks w_recs w_bufs]. rewrite aget_last. cbn [aget nth_error bind].
  destruct (nonnull (c_rec c)) as [ri| |]; cbn [bind lift]; try reflexivity.
  destruct (live (w_recs w) ri) as [r0| |]; cbn [bind lift]; try reflexivity.
  set (recs := w_recs w ++ _).
  change (mkWorld (w_blocks w) recs (hs ++ [c])) with (rebuf (hs ++ [c]) (mkWorld (w_blocks w) recs [])).
  change (mkWorld (w_blocks w) recs [c]) with (rebuf [c] (mkWorld (w_blocks w) recs [])).
  rewrite !alloc_rebuf.
  destruct (manager_allocate (mkWorld (w_blocks w) recs []) (length (w_recs w)) s) as [[w1 b]| |]; cbn [bind lift]; try reflexivity.
  cbn [rebuf w_blocks w_recs w_bufs].
  set (F := fun l : list cbuf =>
     if 0 <? size then
           _ <- error_if (negb (s =? 0)) ;;
           p <- nonnull (c_ptr c) ;;
           old <- live (w_blocks w1) p ;;
           _ <- (if (k_space old =? 0) && (size <=? length (k_data old)) then Ok tt else Fault FOob) ;;
           nb <- live (w_blocks w1) b ;;
           bs <- aset (w_blocks w1) b (Some (mkBlock (k_space nb) (firstn (Nat.min cap size) (k_data old) ++ skipn (Nat.min cap size) (k_data nb)))) ;;
           Ok (mkWorld bs (w_recs w1) l)
         else Ok (rebuf l w1)).
  change (bind (F (hs ++ [c])) (fun w2 => w3 <- chai_free w2 (length hs) ;; w4 <- set_buf w3 (length hs) (mkBuf (Some b) cap (Some (length (w_recs w))) (c_const c)) ;; chai_touch w4 (length hs) s) =
    lift hs (bind (F [c]) (fun w2 => w3 <- chai_free w2 0 ;; w4 <- set_buf w3 0 (mkBuf (Some b) cap (Some (length (w_recs w))) (c_const c)) ;; chai_touch w4 0 s))).
  assert (E : forall l, F l = match F [] with Ok w => Ok (rebuf l w) | Abort => Abort | Fault f => Fault f end).
  { intros l. unfold F. destruct (0 <? size); [|reflexivity]. destruct (error_if (negb (s =? 0))); cbn [bind]; try reflexivity.
    destruct (nonnull (c_ptr c)) as [p| |]; cbn [bind]; try reflexivity.
    destruct (live (w_blocks w1) p) as [old| |]; cbn [bind]; try reflexivity.
    destruct ((k_space old =? 0) && (size <=? length (k_data old))); cbn [bind]; try reflexivity.
    destruct (live (w_blocks w1) b) as [nb| |]; cbn [bind]; try reflexivity.
    destruct (aset (w_blocks w1) b _) as [bs| |]; cbn [bind]; reflexivity. }
  rewrite (E (hs ++ [c])), (E [c]). clear E. destruct (F []) as [w2| |]; cbn [bind lift]; try reflexivity. clear F.
  rewrite frame_free. destruct (chai_free (rebuf [c] w2) 0) as [w3| |] eqn:E3; cbn [bind lift]; try reflexivity.
  assert (L : exists c3, w_bufs w3 = [c3]).
  { revert E3. unfold chai_free. cbn [rebuf w_blocks w_recs w_bufs aget nth_error bind]. destruct (nonnull (c_rec c)) as [q| |]; cbn [bind]; try discriminate.
    rewrite free_rebuf. destruct (manager_free w2 q) as [w4| |]; cbn [bind]; try discriminate. unfold set_buf. cbn [rebuf w_blocks w_recs w_bufs].
    cbn [aset length Nat.ltb Nat.leb upd bind]. intros E3. injection E3 as <-. eexists. reflexivity. }
  destruct L as (c3 & L). unfold set_buf. cbn [rebuf w_blocks w_recs w_bufs]. rewrite L, aset_last. cbn [aset length Nat.ltb Nat.leb upd bind].
  exact (frame_touch hs (mkBuf (Some b) cap (Some (length (w_recs w))) (c_const c)) w3 s).
Qed.
End Frame.
