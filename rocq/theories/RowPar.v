(** Threads calling members of a view on different rows: every interleaving of their accesses ends like running the
    threads one after another. Generic in the members. *)
From Coq Require Import List Arith ZArith Lia Bool.
From Verif Require Import Base BaseProofs Mem MemProofs BufferManip BufferManipProofs ArrayManipProofs AoA AoALayout Conc Prog ProgProofs ViewProg ViewSim RowSim.
From Verif Require AoAProofs.
Import ListNotations.
Set Implicit Arguments.

Lemma nth_skip A (l : list A) d i : nth_error (skipn d l) i = nth_error l (d + i).
Proof. revert l. induction d as [|d IH]; intros l; cbn; auto. destruct l; cbn; auto. destruct i; auto. Qed.
Lemma nth_first A (l : list A) d i x : nth_error (firstn d l) i = Some x -> nth_error l i = Some x.
Proof. revert d i. induction l as [|y l IH]; intros [|d] [|i] E; cbn in *; try discriminate; eauto. Qed.
Lemma upd_mid A (l1 : list A) x y l2 : upd (l1 ++ x :: l2) (length l1) y = l1 ++ y :: l2.
Proof. induction l1; cbn; congruence. Qed.
Lemma forall2_nth A B (Rel : A -> B -> Prop) l l' : Forall2 Rel l l' -> forall i y, nth_error l' i = Some y -> exists x, nth_error l i = Some x /\ Rel x y.
Proof. induction 1; intros [|i] z E; cbn in *; try discriminate; [injection E as <-; eauto|eauto]. Qed.

Section RowPar.
Variables P V W : Type.
Variable fv : P -> V.
Variable fw : P -> W.
Variable tv tw dual : bool.
Notation row := (list P * nat)%type.
Notation rows := (list row).
Notation aoa := (aoa V W).
Notation heap := (heap V W).
Notation prog := (prog V W).
Notation aok := (@AoAProofs.aok P V W fv fw tv tw dual).

(** The members: as program of a view with [n] arrays, as function of the sequential model, and what it does to the
    row: [None] when it is not allowed. *)
Variables Op Res : Type.
Variable pr : nat -> Op -> nat -> prog Res.
Variable fn : Op -> aoa -> nat -> outcome (aoa * Res).
Variable next : Op -> row -> option (row * Res).
(** What the members expect of the row and keep *)
Variable good : row -> Prop.
Hypothesis Hsim : forall n i0 o no ns nv ne op a i a' r h ix (Q : Res -> heap -> Prop), fn op a i = Ok (a', r) ->
  part n i0 o no ns nv ne a h -> ix = i0 + i -> (forall h', part n i0 o no ns nv ne a' h' -> Q r h') ->
  wp (readable i0 o no ns nv ne) (owned i0 o ns nv ne) (pr n op ix) h Q.
Hypothesis Hok : forall op a A x B x' r, aok a (A ++ x :: B) -> good x -> next op x = Some (x', r) ->
  exists a', fn op a (length A) = Ok (a', r) /\ aok a' (A ++ x' :: B).
Hypothesis Hgood : forall op x x' r, good x -> next op x = Some (x', r) -> good x'.
Hypothesis Hwid : forall op x x' r, next op x = Some (x', r) -> wid x' = wid x.

Definition calls : Type := list (nat * Op).
Fixpoint p_calls (n : nat) (q : calls) : prog (list Res) :=
  match q with [] => Ret [] | (i, op) :: q' => r <~ pr n op i ;; rs <~ p_calls n q' ;; Ret (r :: rs) end.
Fixpoint f_calls (q : calls) (a : aoa) : outcome (aoa * list Res) :=
  match q with [] => Ok (a, []) | (i, op) :: q' => '(a1, r) <- fn op a i ;; '(a2, rs) <- f_calls q' a1 ;; Ok (a2, r :: rs) end.
Fixpoint s_calls (q : calls) (L : rows) : option (rows * list Res) :=
  match q with
  | [] => Some (L, [])
  | (i, op) :: q' =>
      match nth_error L i with
      | None => None
      | Some x => match next op x with
                  | None => None
                  | Some (x', r) => match s_calls q' (upd L i x') with None => None | Some (L', rs) => Some (L', r :: rs) end
                  end
      end
  end.

(** ** The sequential model *)
Lemma f_calls_ok q : forall a L L' rs, aok a L -> Forall good L -> s_calls q L = Some (L', rs) ->
  exists a', f_calls q a = Ok (a', rs) /\ aok a' L' /\ Forall good L'.
Proof.
  induction q as [|[i op] q IH]; intros a L L' rs H G E; cbn in E |- *.
  - injection E as <- <-. eauto.
  - destruct (nth_error L i) as [x|] eqn:N; [|discriminate]. destruct (next op x) as [[x' r]|] eqn:Nx; [|discriminate].
    destruct (s_calls q (upd L i x')) as [[L1 rs1]|] eqn:Es; [|discriminate]. injection E as <- <-.
    destruct (nth_error_split L i N) as (A & B & -> & <-). rewrite upd_mid in Es.
    apply Forall_app in G. destruct G as [GA GB]. inversion GB as [|? ? Gx GB']; subst.
    destruct (@Hok op a A x B x' r H Gx Nx) as (a1 & E1 & H1). rewrite E1. cbn.
    destruct (IH _ _ _ _ H1 ltac:(apply Forall_app; eauto) Es) as (a2 & E2 & H2). rewrite E2. cbn. eauto.
Qed.
Lemma s_calls_app q1 q2 L : s_calls (q1 ++ q2) L =
  match s_calls q1 L with None => None | Some (L1, r1) => match s_calls q2 L1 with None => None | Some (L2, r2) => Some (L2, r1 ++ r2) end end.
Proof.
  revert L. induction q1 as [|[i op] q1 IH]; intros L; cbn.
  - destruct (s_calls q2 L) as [[? ?]|]; reflexivity.
  - destruct (nth_error L i); [|reflexivity]. destruct (next op p) as [[x' r]|]; [|reflexivity]. rewrite IH.
    destruct (s_calls q1 (upd L i x')) as [[L1 r1]|]; [|reflexivity]. destruct (s_calls q2 L1) as [[L2 r2]|]; reflexivity.
Qed.

(** ** One row in the memory *)
Definition ewid (x : row) : nat := if dual then wid x else 0.
Definition row_area (i o : nat) (x : row) : area := readable i o 2 1 (wid x) (ewid x).
Definition row_own (i o : nat) (x : row) : area := owned i o 1 (wid x) (ewid x).
Definition row_in (n i o : nat) (x : row) (h : heap) : Prop := good x /\ exists a, aok a [x] /\ part n i o 2 1 (wid x) (ewid x) a h.
(** The begin of row [i] *)
Definition start (L : rows) (i : nat) : nat := total (firstn i L).

Lemma cut_mem A t (b : buf A) l1 l2 l3 : mem t b (l1 ++ l2 ++ l3) ->
  exists c, mem t c l2 /\ length c = length l2 /\ forall i x, nth_error c i = Some x -> nth_error b (length l1 + i) = Some x.
Proof.
  intros M. apply mem_app_inv in M. destruct M as (b1 & b2 & -> & M1 & M2). apply mem_app_inv in M2. destruct M2 as (b3 & b4 & -> & M3 & M4).
  exists b3. split; auto. split; [apply mem_length in M3; exact M3|]. intros i x E. apply mem_length in M1. rewrite <- M1.
  rewrite nth_error_app2 by lia. replace (length b1 + i - length b1) with i by lia. rewrite nth_error_app1; [exact E|].
  apply nth_error_Some. congruence.
Qed.
Lemma cut_lay A (g : P -> A) t b L1 x L2 : lay g t b (L1 ++ x :: L2) ->
  exists c, lay g t c [x] /\ length c = wid x /\ forall i y, nth_error c i = Some y -> nth_error b (total L1 + i) = Some y.
Proof.
  intros [k M]. rewrite flat_app in M. cbn [flat flat_map] in M. rewrite <- !app_assoc in M.
  destruct (@cut_mem A t b (flat g L1) (cells g x) _ M) as (c & Mc & Lc & H). exists c. split.
  - exists 0. cbn. rewrite !app_nil_r. exact Mc.
  - rewrite cells_length in Lc. split; auto. intros i y E. rewrite <- (flat_length g L1). apply H. exact E.
Qed.
Lemma holds_nth (b : buf nat) l i v : holds true b l -> nth_error l i = Some v -> nth_error b i = Some (Obj v).
Proof.
  intros [k M] E. assert (E' : nth_error (map (@LV nat) l ++ repeat LN k) i = Some (LV v)).
  { rewrite nth_error_app1; [rewrite (map_nth_error _ _ _ E); reflexivity|]. rewrite map_length. apply nth_error_Some. congruence. }
  destruct (forall2_nth M _ E') as (c & Ec & R). rewrite Ec. destruct c; cbn in R; try contradiction; congruence.
Qed.
Lemma row_of a L i x : aok a L -> good x -> nth_error L i = Some x -> row_in (numArrays a) i (start L i) x (heap_of a).
Proof.
  intros [(N & Ho & Hz) [Ev Ee]] G E. split; auto. destruct (nth_error_split L i E) as (A & B & -> & <-).
  unfold start. rewrite firstn_app, Nat.sub_diag, firstn_all. cbn [firstn]. rewrite app_nil_r.
  destruct (@cut_lay V fv tv (vals a) A x B Ev) as (cv & Lv & Nv & Hv).
  assert (De : exists ce, (dual = true -> lay fw tw ce [x]) /\ length ce = ewid x /\ forall i y, nth_error ce i = Some y -> nth_error (ents a) (total A + i) = Some y).
  { unfold ewid. destruct dual; [|exists []; split; [discriminate|]; split; auto; intros [|?] ? ?; discriminate].
    destruct (@cut_lay W fw tw (ents a) A x B (Ee eq_refl)) as (ce & Le & Ne & He). exists ce. auto. }
  destruct De as (ce & Le & Ne & He).
  exists (mkAoA 1 [Obj 0; Obj (wid x)] [Obj (length (fst x))] cv ce). split.
  - split; [split; [reflexivity|split]|split; [exact Lv|exact Le]]; exists 0; cbn; repeat constructor.
  - constructor; cbn; auto.
    + rewrite N, app_length. cbn. lia.
    + intros [|[|j]] c Ec; cbn in Ec; try (destruct j; discriminate); injection Ec as <-.
      * cbn. rewrite Nat.add_0_r. eapply holds_nth; [exact Ho|]. rewrite offsets_app, nth_error_app2 by (rewrite starts_length; lia).
        rewrite starts_length, Nat.sub_diag. cbn. f_equal. lia.
      * cbn. eapply holds_nth; [exact Ho|]. rewrite offsets_app, nth_error_app2 by (rewrite starts_length; lia).
        rewrite starts_length. replace (length A + 1 - length A) with 1 by lia. cbn.
        destruct (offsets_cons (total A + wid x) B) as [l ->]. reflexivity.
    + intros [|j] c Ec; cbn in Ec; [|destruct j; discriminate]. injection Ec as <-. rewrite Nat.add_0_r.
      eapply holds_nth; [exact Hz|]. rewrite sizes_app, nth_error_app2 by (rewrite sizes_length; lia). rewrite sizes_length, Nat.sub_diag. reflexivity.
Qed.
Lemma part_ext n i0 o no ns nv ne (a : aoa) h h' : (forall b i, readable i0 o no ns nv ne b i -> h' b i = h b i) ->
  part n i0 o no ns nv ne a h -> part n i0 o no ns nv ne a h'.
Proof.
  intros E H. constructor; try apply H; intros i c Ec; rewrite E; try (apply H; exact Ec); cbn; apply nth_lt in Ec;
    pose proof (pt_no H); pose proof (pt_ns H); pose proof (pt_nv H); pose proof (pt_ne H); lia.
Qed.
Lemma row_ext n i o x h h' : (forall b j, row_area i o x b j -> h' b j = h b j) -> row_in n i o x h -> row_in n i o x h'.
Proof. intros E (G & a & Ha & Hp). split; auto. exists a. split; auto. eapply part_ext; eauto. Qed.
Lemma row_step n i o x op x' r h : row_in n i o x h -> next op x = Some (x', r) ->
  wp (row_area i o x) (row_own i o x) (pr n op i) h (fun r' h' => r' = r /\ row_in n i o x' h').
Proof.
  intros (G & a & Ha & Hp) Nx. pose proof (@Hwid op x x' r Nx) as Ew. destruct (@Hok op a [] x [] x' r Ha G Nx) as (a' & E & Ha').
  eapply Hsim; [exact E|exact Hp|cbn; lia|]. intros h' Hp'. split; auto. split; [eapply Hgood; eauto|]. exists a'. split; auto.
  assert (Ee : ewid x' = ewid x) by (unfold ewid; rewrite Ew; reflexivity). rewrite Ew, Ee. exact Hp'.
Qed.

(** ** The rows of one thread *)
Section Rows.
Variable n : nat.
Variable L0 : rows.
(** Rows keep their place. *)
Definition same_shape (L : rows) : Prop := map (@wid P) L = map (@wid P) L0.
Lemma shape_len L : same_shape L -> length L = length L0.
Proof. intros E. apply (f_equal (@length _)) in E. rewrite !map_length in E. exact E. Qed.
Lemma shape_nth L i x x0 : same_shape L -> nth_error L i = Some x -> nth_error L0 i = Some x0 -> wid x = wid x0.
Proof.
  intros E N N0. apply (map_nth_error (@wid P)) in N. apply (map_nth_error (@wid P)) in N0. rewrite E in N. congruence.
Qed.
Lemma shape_upd L i x x' : same_shape L -> nth_error L i = Some x -> wid x' = wid x -> same_shape (upd L i x').
Proof.
  unfold same_shape. intros <- N E. revert i N. clear -E. induction L as [|y L IH]; intros [|i] N; cbn in *; try discriminate.
  - injection N as ->. congruence.
  - rewrite IH by exact N. reflexivity.
Qed.
Lemma next_in (L : rows) i j x : i < j -> nth_error L i = Some x -> start L i + wid x <= start L j.
Proof.
  revert i j. induction L as [|y L IH]; intros [|i] [|j] Lt N; cbn in *; try discriminate; try lia.
  - injection N as ->. unfold start. cbn. lia.
  - unfold start in *. cbn. specialize (IH i j ltac:(lia) N). lia.
Qed.

(** The cells of the rows in [I] *)
Definition rows_own (I : nat -> Prop) : area := fun b j => exists i x, I i /\ nth_error L0 i = Some x /\ row_own i (start L0 i) x b j.
Definition rows_area (I : nat -> Prop) : area := fun b j => exists i x, I i /\ nth_error L0 i = Some x /\ row_area i (start L0 i) x b j.
Lemma own_apart i k x y b j : i <> k -> nth_error L0 i = Some x -> nth_error L0 k = Some y ->
  row_own i (start L0 i) x b j -> ~ row_area k (start L0 k) y b j.
Proof.
  intros Ne Nx Ny Hx Hy. assert (Sep : start L0 i + wid x <= start L0 k \/ start L0 k + wid y <= start L0 i).
  { destruct (Nat.lt_gt_cases i k) as [H _]. destruct (H Ne); [left|right]; eapply next_in; eauto. }
  unfold row_own, row_area, ewid in *. destruct b, dual; cbn in *; lia.
Qed.
Definition rows_in (I : nat -> Prop) (L : rows) (h : heap) : Prop := forall i x, I i -> nth_error L i = Some x -> row_in n i (start L0 i) x h.

Lemma calls_wp (I : nat -> Prop) q : forall L L' rs h, same_shape L -> (forall i op, In (i, op) q -> I i) -> s_calls q L = Some (L', rs) -> rows_in I L h ->
  wp (rows_area I) (rows_own I) (p_calls n q) h (fun rs' h' => rs' = rs /\ rows_in I L' h' /\ same_shape L').
Proof.
  induction q as [|[i op] q IH]; intros L L' rs h Sh Hq E H; cbn in E |- *.
  - injection E as <- <-. auto.
  - destruct (nth_error L i) as [x|] eqn:N; [|discriminate]. destruct (next op x) as [[x' r]|] eqn:Nx; [|discriminate].
    destruct (s_calls q (upd L i x')) as [[L1 rs1]|] eqn:Es; [|discriminate]. injection E as <- <-.
    assert (Hi : I i) by (apply (Hq i op); cbn; auto).
    assert (Lt : i < length L) by (apply nth_error_Some; congruence).
    destruct (nth_error L0 i) as [x0|] eqn:N0; [|apply nth_error_None in N0; rewrite <- (shape_len Sh) in N0; lia].
    assert (Ea : row_area i (start L0 i) x = row_area i (start L0 i) x0) by (unfold row_area, ewid; rewrite (shape_nth _ Sh N N0); reflexivity).
    assert (Eo : row_own i (start L0 i) x = row_own i (start L0 i) x0) by (unfold row_own, ewid; rewrite (shape_nth _ Sh N N0); reflexivity).
    pose proof (@row_step n i (start L0 i) x op x' r h (H i x Hi N) Nx) as St. apply wp_frame in St. rewrite Ea, Eo in St.
    apply wp_bind. eapply wp_mono.
    + eapply wp_area; [| |exact St].
      * intros b j Hb. exists i, x0. auto.
      * intros b j Hb. exists i, x0. auto.
    + cbn beta. intros r' h1 [[-> Hr] Fr]. apply wp_bind. eapply wp_mono.
      * eapply IH; [| |exact Es|].
        -- eapply shape_upd; eauto.
        -- intros k op' Hk. apply (Hq k op'). cbn. auto.
        -- intros k y Hk Ny. destruct (Nat.eq_dec k i) as [->|Ne].
           ++ rewrite nth_error_upd_eq in Ny by exact Lt. injection Ny as <-. exact Hr.
           ++ rewrite nth_error_upd_ne in Ny by auto. eapply row_ext; [|exact (H k y Hk Ny)].
              intros b j Hb. apply Fr. intros Ho.
              destruct (nth_error L0 k) as [y0|] eqn:Nk; [|apply nth_error_None in Nk; rewrite <- (shape_len Sh) in Nk; apply nth_error_None in Nk; congruence].
              assert (Ek : row_area k (start L0 k) y = row_area k (start L0 k) y0) by (unfold row_area, ewid; rewrite (shape_nth _ Sh Ny Nk); reflexivity).
              rewrite Ek in Hb. exact (@own_apart i k x0 y0 b j (not_eq_sym Ne) N0 Nk Ho Hb).
      * cbn. intros rs' h2 [-> Hh]. auto.
Qed.
Lemma rows_own_dec (l : list nat) b j : rows_own (fun i => In i l) b j \/ ~ rows_own (fun i => In i l) b j.
Proof.
  induction l as [|i l IH].
  - right. intros (i & x & [] & _).
  - destruct IH as [(k & x & Hk & Hr)|IH]; [left; exists k, x; cbn; auto|].
    destruct (nth_error L0 i) as [x|] eqn:N.
    + assert (D : row_own i (start L0 i) x b j \/ ~ row_own i (start L0 i) x b j).
      { unfold row_own. destruct b; cbn; lia. }
      destruct D as [D|D]; [left; exists i, x; cbn; auto|]. right. intros (k & y & [<-|Hk] & Ny & Hr).
      * rewrite N in Ny. injection Ny as <-. contradiction.
      * apply IH. exists k, y. auto.
    + right. intros (k & y & [<-|Hk] & Ny & Hr); [congruence|]. apply IH. exists k, y. auto.
Qed.
End Rows.

(** ** All threads *)
Definition rows_of (q : calls) : list nat := map fst q.
Lemma in_rows i op (q : calls) : In (i, op) q -> In i (rows_of q).
Proof. intros H. apply in_map_iff. exists (i, op). auto. Qed.
Definition disjoint_rows (ths : list calls) : Prop := forall t u q q' i, nth_error ths t = Some q -> nth_error ths u = Some q' -> t <> u ->
  In i (rows_of q) -> ~ In i (rows_of q').
Lemma s_calls_shape q : forall L0 L L' rs, same_shape L0 L -> s_calls q L = Some (L', rs) ->
  same_shape L0 L' /\ forall i, ~ In i (rows_of q) -> nth_error L' i = nth_error L i.
Proof.
  induction q as [|[i op] q IH]; intros L0 L L' rs Sh E; cbn in E.
  - injection E as <- <-. auto.
  - destruct (nth_error L i) as [x|] eqn:N; [|discriminate]. destruct (next op x) as [[x' r]|] eqn:Nx; [|discriminate].
    destruct (s_calls q (upd L i x')) as [[L1 rs1]|] eqn:Es; [|discriminate]. injection E as <- <-.
    destruct (IH L0 _ _ _ (shape_upd _ _ Sh N (@Hwid op x x' r Nx)) Es) as [Sh' Fr]. split; auto.
    intros k Hk. cbn in Hk. rewrite Fr by tauto. apply nth_error_upd_ne. intros ->. tauto.
Qed.
Lemma seq_states L0 ths : forall L L' rs, disjoint_rows ths -> same_shape L0 L -> s_calls (concat ths) L = Some (L', rs) ->
  exists rss, rs = concat rss /\ length rss = length ths /\
    forall t q, nth_error ths t = Some q -> exists Lt Lt' rt, nth_error rss t = Some rt /\ s_calls q Lt = Some (Lt', rt) /\ same_shape L0 Lt /\
      forall i, In i (rows_of q) -> nth_error Lt i = nth_error L i.
Proof.
  induction ths as [|q ths IH]; intros L L' rs D Sh E; cbn in E.
  - injection E as <- <-. exists []. split; auto. split; auto. intros [|t] q N; discriminate.
  - rewrite s_calls_app in E. destruct (s_calls q L) as [[L1 r1]|] eqn:E1; [|discriminate].
    destruct (s_calls (concat ths) L1) as [[L2 r2]|] eqn:E2; [|discriminate]. injection E as <- <-.
    destruct (@s_calls_shape q L0 L L1 r1 Sh E1) as [Sh1 Fr].
    destruct (IH L1 L2 r2) as (rss & -> & El & H); auto.
    { intros t u q1 q2 i N1 N2 Ne. apply (D (S t) (S u) q1 q2 i N1 N2). lia. }
    exists (r1 :: rss). split; auto. split; [cbn; lia|]. intros [|t] q' N; cbn in N.
    + injection N as <-. exists L, L1, r1. auto.
    + destruct (H t q' N) as (Lt & Lt' & rt & Nr & Es & Sht & Ag). exists Lt, Lt', rt. split; auto. split; auto. split; auto.
      intros i Hi. rewrite Ag by exact Hi. apply Fr. intros Hq. apply (D 0 (S t) q q' i eq_refl N); auto.
Qed.
Lemma choose A B (l : list A) (R : nat -> A -> B -> Prop) : (forall t x, nth_error l t = Some x -> exists y, R t x y) ->
  exists l', length l' = length l /\ forall t x, nth_error l t = Some x -> exists y, nth_error l' t = Some y /\ R t x y.
Proof.
  revert R. induction l as [|x l IH]; intros R H.
  - exists []. split; auto. intros [|t] y N; discriminate.
  - destruct (H 0 x eq_refl) as [y Hy]. destruct (IH (fun t => R (S t))) as (l' & El & Hl); [intros t z N; apply (H (S t) z N)|].
    exists (y :: l'). split; [cbn; lia|]. intros [|t] z N; cbn in *; [injection N as <-; eauto|eauto].
Qed.
Lemma calls_sim n i0 o no ns nv ne q : forall a a' rs h, i0 = 0 -> f_calls q a = Ok (a', rs) -> part n i0 o no ns nv ne a h ->
  wp (readable i0 o no ns nv ne) (owned i0 o ns nv ne) (p_calls n q) h (fun r h' => r = rs /\ part n i0 o no ns nv ne a' h').
Proof.
  induction q as [|[i op] q IH]; intros a a' rs h E0 E H; cbn in E |- *.
  - injection E as <- <-. auto.
  - binv E ar E1. destruct ar as [a1 r]. binv E ar E2. destruct ar as [a2 rs2]. injection E as <- <-. apply wp_bind.
    eapply Hsim; [exact E1|exact H|lia|]. intros h1 H1. apply wp_bind. eapply wp_mono; [eapply IH; [exact E0|exact E2|exact H1]|].
    cbn. intros r' h2 [-> H2]. auto.
Qed.
Lemma run_calls_app n q1 q2 h : run (p_calls n (q1 ++ q2)) h =
  bind (run (p_calls n q1) h) (fun r1 => bind (run (p_calls n q2) (snd r1)) (fun r2 => Ok (fst r1 ++ fst r2, snd r2))).
Proof.
  revert h. induction q1 as [|[i op] q1 IH]; intros h; cbn.
  - destruct (run (p_calls n q2) h) as [[? ?]| |]; reflexivity.
  - rewrite !run_bind. destruct (run (pr n op i) h) as [[r h1]| |]; cbn; auto. rewrite !run_bind, IH.
    destruct (run (p_calls n q1) h1) as [[r1 h2]| |]; cbn; auto. destruct (run (p_calls n q2) h2) as [[r2 h3]| |]; reflexivity.
Qed.
Lemma seq_run_concat n ths : forall h l h', seq_run (map (p_calls n) ths) h = Ok (l, h') -> run (p_calls n (concat ths)) h = Ok (concat l, h').
Proof.
  induction ths as [|q ths IH]; intros h l h' E; cbn in E |- *.
  - injection E as <- <-. reflexivity.
  - binv E rh E1. destruct rh as [r h1]. binv E rh E2. destruct rh as [r2 h2]. injection E as <- <-.
    rewrite run_calls_app, E1. cbn. rewrite (IH _ _ _ E2). reflexivity.
Qed.
Lemma part_full (a : aoa) : part (numArrays a) 0 0 (length (offs a)) (length (szs a)) (length (vals a)) (length (ents a)) a (heap_of a).
Proof. constructor; cbn; auto. intros i c E. rewrite E. destruct c; reflexivity. Qed.

Theorem rows_parallel a L ths L' rs : aok a L -> Forall good L -> disjoint_rows ths -> s_calls (concat ths) L = Some (L', rs) ->
  exists a' rss, rs = concat rss /\ f_calls (concat ths) a = Ok (a', rs) /\ aok a' L' /\ Forall good L' /\
    exists steps, forall sched, exists h' ths', exec (@access V W (list Res)) sched (heap_of a) (map (p_calls (numArrays a)) ths) = Ok (h', ths') /\ no_race ths' /\
      ((forall t, t < length ths -> steps <= count_occ Nat.eq_dec sched t) -> done ths') /\
      (done ths' -> ths' = map Ret rss /\ forall b i, h' b i = heap_of a' b i).
Proof.
  intros H Gd D E. set (n := numArrays a). destruct (f_calls_ok (concat ths) H Gd E) as (a' & Ef & H' & G').
  destruct (@seq_states L ths L L' rs D eq_refl E) as (rss & Er & Elr & St).
  set (I := fun t i => match nth_error ths t with Some q => In i (rows_of q) | None => False end).
  set (Ar := fun t => rows_area L (I t)). set (Ow := fun t => rows_own L (I t)).
  assert (Ap : forall t u b i, t <> u -> Ow t b i -> ~ Ar u b i /\ ~ Ow u b i).
  { intros t u b i Ne (k & x & Ik & Nk & Hk).
    assert (G : ~ Ar u b i).
    { intros (k' & x' & Ik' & Nk' & Hk'). unfold I in Ik, Ik'. destruct (nth_error ths t) as [q|] eqn:Nt; [|contradiction].
      destruct (nth_error ths u) as [q'|] eqn:Nu; [|contradiction]. destruct (Nat.eq_dec k k') as [<-|Nk2].
      - exact (D t u q q' k Nt Nu Ne Ik Ik').
      - exact (@own_apart L k k' x x' b i Nk2 Nk Nk' Hk Hk'). }
    split; auto. intros (k' & x' & Ik' & Nk' & Hk'). apply G. exists k', x'. split; auto. split; auto. destruct b; cbn in *; auto; contradiction. }
  assert (So : forall t q, nth_error ths t = Some q -> exists r, solo Ar Ow (heap_of a) t (p_calls n q) r /\ nth_error rss t = Some (fst r)).
  { intros t q N. destruct (St t q N) as (Lt & Lt' & rt & Nr & Es & Sh & Ag).
    assert (Wp : wp (Ar t) (Ow t) (p_calls n q) (heap_of a) (fun rs' h' => rs' = rt /\ rows_in n L (I t) Lt' h' /\ same_shape L Lt')).
    { eapply calls_wp; [exact Sh| |exact Es|].
      - intros i op Hi. unfold I. rewrite N. eapply in_rows; eauto.
      - intros i x Hi Nx. unfold I in Hi. rewrite N in Hi. rewrite (Ag i Hi) in Nx. eapply row_of; eauto.
        apply nth_error_In in Nx. rewrite Forall_forall in Gd. auto. }
    destruct (@wp_exact V W _ _ _ _ _ _ Wp) as (r & Hr & Ef' & _). exists r. split; auto. rewrite Ef'. exact Nr. }
  destruct (choose ths _ So) as (res & Ers & Hres).
  set (ps := map (p_calls n) ths).
  assert (Ep : length ps = length ths) by (unfold ps; apply map_length).
  assert (I0 : inv Ar Ow (heap_of a) ps res (heap_of a) ps).
  { apply inv_start. intros t p N. unfold ps in N. rewrite nth_error_map in N. destruct (nth_error ths t) as [q|] eqn:Nq; [|discriminate].
    injection N as <-. destruct (Hres t q Nq) as (r & Nr & Sr & _). eauto. }
  assert (Frs : map fst res = rss).
  { apply nth_error_ext_eq; [rewrite map_length; lia|]. intros t Lt. rewrite map_length in Lt.
    destruct (nth_error ths t) as [q|] eqn:Nq; [|apply nth_error_None in Nq; lia]. destruct (Hres t q Nq) as (r & Nr & _ & Nr').
    rewrite (map_nth_error _ _ _ Nr), Nr'. reflexivity. }
  assert (Od : forall b i, (exists t, t < length ps /\ Ow t b i) \/ (forall t, t < length ps -> ~ Ow t b i)).
  { intros b i. assert (G : forall m, (exists t, t < m /\ Ow t b i) \/ (forall t, t < m -> ~ Ow t b i)).
    { induction m as [|m [(t & Lt & Ht)|IH]]; [right; lia|left; exists t; split; [lia|exact Ht]|].
      assert (Dm : Ow m b i \/ ~ Ow m b i).
      { unfold Ow, I. destruct (nth_error ths m) as [q|]; [apply rows_own_dec|]. right. intros (k & x & [] & _). }
      destruct Dm as [Dm|Dm]; [left; exists m; auto|]. right. intros t Lt. destruct (Nat.eq_dec t m) as [->|]; auto. apply IH. lia. }
    apply G. }
  destruct (@inv_seq V W (list Res) Ar Ow Ap (heap_of a) ps res ps (heap_of a) [] I0) as (l & h2 & E2 & I2). cbn [app] in I2.
  apply seq_run_concat in E2.
  destruct (@wp_run V W _ _ _ _ _ _ (calls_sim (concat ths) eq_refl Ef (part_full a))) as (r3 & h3 & E3 & [-> Pt] & _).
  fold n in E3. rewrite E3 in E2. injection E2 as _ <-.
  assert (Eh : forall b i, h3 b i = heap_of a' b i).
  { intros b i. pose proof (@run_dom V W _ _ _ _ _ E3 b i) as Dm. destruct (heap_of a' b i) as [c|] eqn:Ec.
    - destruct b; cbn in Ec.
      + rewrite <- (Nat.add_0_l i) at 1. rewrite (pt_offs Pt _ Ec). destruct c; reflexivity.
      + exact (pt_szs Pt _ Ec).
      + exact (pt_vals Pt _ Ec).
      + exact (pt_ents Pt _ Ec).
    - apply Dm. destruct b; cbn in *; apply nth_error_None; apply nth_error_None in Ec;
        [rewrite (pt_no Pt) in Ec|rewrite (pt_ns Pt) in Ec|rewrite (pt_nv Pt) in Ec|rewrite (pt_ne Pt) in Ec]; exact Ec. }
  exists a', rss. split; auto. split; auto. split; auto. split; auto.
  exists (list_max (map (fun p => plen p (heap_of a)) ps)). intros sched.
  destruct (@inv_exec V W (list Res) Ar Ow Ap (heap_of a) ps res sched (heap_of a) ps I0) as (h' & ths' & Ex & I').
  exists h', ths'. split; auto. split; [exact (@inv_no_race V W (list Res) Ar Ow Ap (heap_of a) ps res h' ths' I')|]. split.
  { intros Fair t th N. assert (Lt : t < length ths).
    { destruct I' as (El & _). rewrite <- Ep, <- El. apply nth_error_Some. congruence. }
    destruct (nth_error ps t) as [p|] eqn:Np; [|apply nth_error_None in Np; lia].
    destruct (@inv_finishes V W (list Res) Ar Ow Ap (heap_of a) ps res sched (heap_of a) ps h' ths' I0 Ex t p Np) as [x Ex'].
    - eapply Nat.le_trans; [|apply Fair; exact Lt]. pose proof (proj1 (list_max_le (map (fun p => plen p (heap_of a)) ps) _) (Nat.le_refl _)) as Fm.
      rewrite Forall_forall in Fm. apply Fm. apply in_map_iff. exists p. split; auto. eapply nth_error_In; eauto.
    - exists x. congruence. }
  intros Dn. split.
  - rewrite (@inv_results V W (list Res) Ar Ow (heap_of a) ps res (eq_trans Ers (eq_sym Ep)) h' ths' I' Dn), <- Frs, map_map. reflexivity.
  - intros b i. rewrite <- Eh. eapply (@inv_agree V W (list Res) Ar Ow (heap_of a) ps res Od (eq_trans Ers (eq_sym Ep)) h' ths' h3 _ I' Dn I2).
    intros t th N. rewrite nth_error_map in N. destruct (nth_error l t); [|discriminate]. injection N as <-. eauto.
Qed.
End RowPar.
