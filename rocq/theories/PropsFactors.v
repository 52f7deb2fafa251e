(** C105: the inverse of the elimination is that of the LU decomposition with row
    exchanges, every operation in its place. *)
From Coq Require Import List Arith Lia Bool ZArith Reals Lra.
From Verif Require Import Base Num F64 F64Facts Linalg Jacobian SafeFacts Samples PropsEntries.
Import ListNotations.
Local Open Scope nat_scope.

Section Factors.
Context {F : Type} {NF : Num F}.

(** ** The decomposition *)
(** [start - l_0 v_0 - ... - l_(k-1) v_(k-1)], in this order. *)
Definition chain (l v : nat -> F) (k : nat) (start : F) : F :=
  fold_left (fun acc i => nadd (nmul (nneg (l i)) (v i)) acc) (seq 0 k) start.
(** The same from the last term [n - 1] down to [k + 1]. *)
Definition chain_down (l v : nat -> F) (k n : nat) (start : F) : F :=
  fold_right (fun i acc => nadd (nmul (nneg (l i)) (v i)) acc) start (seq (S k) (n - S k)).

(** An order of the rows. *)
Definition order_of (n : nat) (p : nat -> nat) : Prop :=
  (forall k, k < n -> p k < n) /\ (forall i j, i < n -> j < n -> p i = p j -> i = j).

(** [p A = L U]: [U] above, the multipliers [L] below the diagonal, no null pivot,
    and no multiplier from a larger entry than the pivot. *)
Definition factors (n : nat) (a : nat -> nat -> F) (p : nat -> nat) (L U : nat -> nat -> F) : Prop :=
  (forall k j, k <= j < n -> U k j = chain (L k) (fun i => U i j) k (a (p k) j)) /\
  (forall i k, k < i < n -> L i k = nmul (chain (L i) (fun j => U j k) k (a (p i) k)) (ndiv n1 (U k k))) /\
  (forall k, k < n -> neqb (U k k) n0 = false) /\
  (forall i k, k < i < n -> ngtb (nabs (chain (L i) (fun j => U j k) k (a (p i) k))) (nabs (U k k)) = false).

(** The row in position [i] after the first [k] exchanges, the exchange number [x]
    being that of the positions [x] and [x + e x]. *)
Fixpoint arranged (e : nat -> nat) (k i : nat) : nat :=
  match k with
  | O => i
  | S k' => arranged e k' (if Nat.eqb i k' then k' + e k' else if Nat.eqb i (k' + e k') then k' else i)
  end.
(** Which of several pivots is taken: the order [p] is that of the exchanges [e], an
    entry in a position before that of the pivot is not equal to it, and the first
    one is smaller (so that a NaN is the pivot when, and only when, it comes first). *)
Definition first_largest (n : nat) (a : nat -> nat -> F) (p : nat -> nat) (L U : nat -> nat -> F) (e : nat -> nat) : Prop :=
  (forall k, k < n -> k + e k < n) /\ (forall i, i < n -> p i = arranged e n i) /\
  (forall k i j, k < i < n -> j < e k -> arranged e k (k + j) = p i ->
     neqb (nabs (chain (L i) (fun x => U x k) k (a (p i) k))) (nabs (U k k)) = false) /\
  (forall k i, k < i < n -> 0 < e k -> arranged e k k = p i ->
     ngtb (nabs (U k k)) (nabs (chain (L i) (fun x => U x k) k (a (p i) k))) = true).

(** The same before the column [last], where the remaining entries are null or NaN:
    the chosen one is null and none is greater. *)
Definition stuck (n : nat) (a : nat -> nat -> F) (p : nat -> nat) (L U : nat -> nat -> F) (last : nat) : Prop :=
  last < n /\
  (forall k j, k < last -> k <= j < n -> U k j = chain (L k) (fun i => U i j) k (a (p k) j)) /\
  (forall i k, k < last -> k < i < n -> L i k = nmul (chain (L i) (fun j => U j k) k (a (p i) k)) (ndiv n1 (U k k))) /\
  (forall k, k < last -> neqb (U k k) n0 = false) /\
  (forall i k, k < last -> k < i < n -> ngtb (nabs (chain (L i) (fun j => U j k) k (a (p i) k))) (nabs (U k k)) = false) /\
  neqb (chain (L last) (fun j => U j last) last (a (p last) last)) n0 = true /\
  (forall i, last < i < n -> ngtb (nabs (chain (L i) (fun j => U j last) last (a (p i) last)))
                                 (nabs (chain (L last) (fun j => U j last) last (a (p last) last))) = false).

(** ** The elimination *)
Definition exchanged (r i : nat) : nat := if Nat.eqb i 0 then r else if Nat.eqb i r then 0 else i.
Lemma exchanged_inj r i j : exchanged r i = exchanged r j -> i = j.
Proof.
  unfold exchanged; destruct (Nat.eqb_spec i 0), (Nat.eqb_spec j 0), (Nat.eqb_spec i r), (Nat.eqb_spec j r); lia.
Qed.
Lemma exchanged_lt r i n : r < n -> i < n -> exchanged r i < n.
Proof. unfold exchanged; destruct (Nat.eqb_spec i 0), (Nat.eqb_spec i r); lia. Qed.
Lemma arranged_S e k : forall i, arranged e (S k) i
  = exchanged (e 0) (match i with O => O | S i' => S (arranged (fun x => e (S x)) k i') end).
Proof.
  induction k as [|k IH]; intros i.
  - cbn [arranged]; unfold exchanged; destruct i; [reflexivity|]; cbn [Nat.eqb].
    change (0 + e 0) with (e 0); destruct (Nat.eqb_spec (S i) (e 0)); reflexivity.
  - change (arranged e (S (S k)) i) with (arranged e (S k) (if Nat.eqb i (S k) then S k + e (S k) else if Nat.eqb i (S k + e (S k)) then S k else i)).
    rewrite IH; f_equal; destruct i as [|i]; [reflexivity|].
    cbn [arranged]; change (Nat.eqb (S i) (S k)) with (Nat.eqb i k); change (Nat.eqb (S i) (S k + e (S k))) with (Nat.eqb i (k + e (S k))).
    destruct (Nat.eqb i k); [reflexivity|]; destruct (Nat.eqb i (k + e (S k))); reflexivity.
Qed.
Lemma nth_swap {T} (rows : list T) r i d : r < length rows -> i < length rows ->
  nth i (swap_rows rows r) d = nth (exchanged r i) rows d.
Proof.
  intros Hr Hi; unfold swap_rows, exchanged; destruct r as [|r].
  - destruct i; reflexivity.
  - destruct rows as [|r0 rest]; [inversion Hr|]; cbn [length] in Hr, Hi.
    destruct (nth_error rest r) as [rk|] eqn:E; [|apply nth_error_None in E; lia].
    destruct i as [|i]; cbn [Nat.eqb nth].
    { symmetry; apply nth_error_nth, E. }
    assert (LF : length (firstn r rest) = r) by (rewrite firstn_length; lia).
    destruct (Nat.eqb_spec i r) as [->|NE].
    + rewrite app_nth2 by lia; rewrite LF, Nat.sub_diag; reflexivity.
    + destruct (Nat.lt_ge_cases i r).
      * rewrite app_nth1 by lia; rewrite <- (firstn_skipn r rest) at 2; rewrite app_nth1 by lia; reflexivity.
      * rewrite app_nth2 by lia; rewrite LF; destruct (i - r) as [|q] eqn:Q; [lia|]; cbn [nth].
        rewrite <- (firstn_skipn (S r) rest) at 2; rewrite app_nth2 by (rewrite firstn_length; lia).
        f_equal; rewrite firstn_length; lia.
Qed.

Context (IR : forall x : F, ngtb x x = false)
  (TR : forall x b c : F, ngtb x b = false -> ngtb c b = true -> ngtb x c = false)
  (EN : forall x b c : F, ngtb x b = false -> ngtb c b = true -> neqb x c = false).

Lemma skipn_next {T} : forall i (l : list T) x r, skipn i l = x :: r -> skipn (S i) l = r.
Proof using.
  induction i as [|i IH]; intros [|y l] x r E; try discriminate E; [injection E as _ <-; reflexivity|].
  exact (IH l x r E).
Qed.
Lemma icamax_from_largest (full : list F) : forall col i best ib,
  skipn i full = col -> ib < i -> i <= length full -> best = nabs (nth ib full n0) ->
  (forall j, j < i -> ngtb (nabs (nth j full n0)) best = false) ->
  let r := icamax_from col i best ib in
  r < length full /\ forall j, j < length full -> ngtb (nabs (nth j full n0)) (nabs (nth r full n0)) = false.
Proof using IR TR.
  induction col as [|x col IH]; intros i best ib ES Hb Hi EB Q; cbn [icamax_from].
  - assert (LE : length full = i).
    { assert (E := f_equal (@length F) ES); rewrite skipn_length in E; cbn [length] in E; lia. }
    split; [lia|]; intros j Hj; rewrite <- EB; apply Q; lia.
  - assert (Hl : i < length full).
    { assert (E := f_equal (@length F) ES); rewrite skipn_length in E; cbn [length] in E; lia. }
    assert (EX : nth i full n0 = x).
    { rewrite <- (firstn_skipn i full), app_nth2; rewrite firstn_length, Nat.min_l by lia; [|lia].
      rewrite Nat.sub_diag, ES; reflexivity. }
    assert (ES' : skipn (S i) full = col).
    { apply (skipn_next _ _ _ _ ES). }
    destruct (ngtb (nabs x) best) eqn:G; apply IH; auto; try lia.
    + rewrite EX; reflexivity.
    + intros j Hj; destruct (Nat.eq_dec j i) as [->|NE]; [rewrite EX; apply IR|].
      apply (TR _ best); [apply Q; lia|exact G].
    + intros j Hj; destruct (Nat.eq_dec j i) as [->|NE]; [rewrite EX; exact G|apply Q; lia].
Qed.
Lemma icamax_largest (col : list F) : col <> [] ->
  icamax col < length col /\ forall j, j < length col -> ngtb (nabs (nth j col n0)) (nabs (nth (icamax col) col n0)) = false.
Proof using IR TR.
  destruct col as [|x col]; [congruence|]; intros _; unfold icamax.
  apply (icamax_from_largest (x :: col) col 1 (nabs x) 0); cbn [length nth]; auto; [lia|].
  intros j Hj; replace j with 0 by lia; apply IR.
Qed.

Lemma icamax_from_first (full : list F) : forall col i best ib,
  skipn i full = col -> ib < i -> i <= length full -> best = nabs (nth ib full n0) ->
  (forall j, j < i -> ngtb (nabs (nth j full n0)) best = false) ->
  (forall j, j < ib -> neqb (nabs (nth j full n0)) best = false) ->
  (0 < ib -> ngtb best (nabs (nth 0 full n0)) = true) ->
  let r := icamax_from col i best ib in
  (forall j, j < r -> neqb (nabs (nth j full n0)) (nabs (nth r full n0)) = false) /\
  (0 < r -> ngtb (nabs (nth r full n0)) (nabs (nth 0 full n0)) = true).
Proof using IR TR EN.
  induction col as [|x col IH]; intros i best ib ES Hb Hi EB Q Q1 Q2; cbn [icamax_from].
  - rewrite <- EB; split; assumption.
  - assert (Hl : i < length full).
    { assert (E := f_equal (@length F) ES); rewrite skipn_length in E; cbn [length] in E; lia. }
    assert (EX : nth i full n0 = x).
    { rewrite <- (firstn_skipn i full), app_nth2; rewrite firstn_length, Nat.min_l by lia; [|lia].
      rewrite Nat.sub_diag, ES; reflexivity. }
    assert (ES' := skipn_next _ _ _ _ ES).
    destruct (ngtb (nabs x) best) eqn:G; apply IH; auto; try lia.
    + rewrite EX; reflexivity.
    + intros j Hj; destruct (Nat.eq_dec j i) as [->|D]; [rewrite EX; apply IR|].
      apply (TR _ best); [apply Q; lia|exact G].
    + intros j Hj; apply (EN _ best); [apply Q; lia|exact G].
    + intros _; destruct (Nat.eq_dec ib 0) as [->|D]; [rewrite <- EB; exact G|].
      destruct (ngtb (nabs x) (nabs (nth 0 full n0))) eqn:X; [reflexivity|].
      rewrite (TR _ _ best X) in G; [discriminate G|apply Q2; lia].
    + intros j Hj; destruct (Nat.eq_dec j i) as [->|D]; [rewrite EX; exact G|apply Q; lia].
Qed.
Lemma icamax_first (col : list F) : col <> [] ->
  (forall j, j < icamax col -> neqb (nabs (nth j col n0)) (nabs (nth (icamax col) col n0)) = false) /\
  (0 < icamax col -> ngtb (nabs (nth (icamax col) col n0)) (nabs (nth 0 col n0)) = true).
Proof using IR TR EN.
  destruct col as [|x col]; [congruence|]; intros _; unfold icamax.
  apply (icamax_from_first (x :: col) col 1 (nabs x) 0); cbn [length nth]; auto; try lia.
  intros j Hj; replace j with 0 by lia; apply IR.
Qed.

Definition no_row : vec F * vec F := ([], []).
Definition upper (u : list (vec F * vec F)) (k j : nat) : F := nth (j - k) (fst (nth k u no_row)) n0.
Definition right_side (u : list (vec F * vec F)) (k c : nat) : F := nth c (snd (nth k u no_row)) n0.

Lemma chain_S l v k start : chain l v (S k) start
  = chain (fun i => l (S i)) (fun i => v (S i)) k (nadd (nmul (nneg (l 0)) (v 0)) start).
Proof using.
  unfold chain; cbn [seq fold_left]; rewrite <- seq_shift.
  generalize (nadd (nmul (nneg (l 0)) (v 0)) start) as acc; induction (seq 0 k) as [|i s IH]; intros acc; [reflexivity|].
  cbn [map fold_left]; apply IH.
Qed.
Lemma nth_axpy (a : F) x y j : length x = length y -> j < length y ->
  nth j (axpy a x y) n0 = nadd (nmul a (nth j x n0)) (nth j y n0).
Proof using.
  unfold axpy; revert y j; induction x as [|x0 x IH]; intros [|y0 y] [|j] L Hj; cbn [length] in *; try lia; [reflexivity|].
  cbn [map2 nth]; apply IH; lia.
Qed.
Lemma nth_tl (v : vec F) j : nth j (tl v) n0 = nth (S j) v n0.
Proof using. destruct v; [destruct j|]; reflexivity. Qed.
Lemma hd_nth (v : vec F) : hd n0 v = nth 0 v n0.
Proof using. destruct v; reflexivity. Qed.

Lemma forward_factors w : forall m (rows u : list (vec F * vec F)), length rows = m ->
  (forall rb, In rb rows -> length (fst rb) = m /\ length (snd rb) = w) -> lu_forward m rows = Some u ->
  exists p L e, order_of m p /\ length u = m /\
    (forall k, k < m -> length (fst (nth k u no_row)) = m - k) /\
    factors m (fun i j => nth j (fst (nth i rows no_row)) n0) p L (upper u) /\
    first_largest m (fun i j => nth j (fst (nth i rows no_row)) n0) p L (upper u) e /\
    (forall k c, k < m -> c < w ->
       right_side u k c = chain (L k) (fun i => right_side u i c) k (nth c (snd (nth (p k) rows no_row)) n0)).
Proof using IR TR EN.
  induction m as [|m IH]; intros rows u LR QR E.
  - cbn [lu_forward] in E; injection E as <-; exists (fun i => i), (fun _ _ => n0), (fun _ => 0).
    unfold order_of, factors, first_largest; repeat split; intros; try lia; reflexivity.
  - cbn [lu_forward] in E; set (heads := map (fun rb => hd n0 (fst rb)) rows) in E.
    assert (LH : length heads = S m) by (unfold heads; rewrite map_length; exact LR).
    destruct (icamax_largest heads) as (Hr & Big); [destruct heads; [discriminate LH|congruence]|].
    destruct (icamax_first heads) as (Ties & First); [destruct heads; [discriminate LH|congruence]|].
    set (r := icamax heads) in *; rewrite LH in Hr, Big.
    assert (NS : forall i, i < S m -> nth i (swap_rows rows r) no_row = nth (exchanged r i) rows no_row)
      by (intros i Hi; apply nth_swap; lia).
    assert (LS : length (swap_rows rows r) = S m) by (rewrite swap_rows_length; exact LR).
    destruct (swap_rows rows r) as [|[piv b] rest] eqn:ER; [discriminate LS|]; cbn [length] in LS; injection LS as LS.
    destruct (neqb (hd n0 piv) n0) eqn:NZ; [discriminate|].
    set (step := fun rb : vec F * vec F =>
      (axpy (nneg (nmul (hd n0 (fst rb)) (ndiv n1 (hd n0 piv)))) (tl piv) (tl (fst rb)),
       axpy (nneg (nmul (hd n0 (fst rb)) (ndiv n1 (hd n0 piv)))) b (snd rb))).
    change (match lu_forward m (map step rest) with Some u0 => Some ((piv, b) :: u0) | None => None end = Some u) in E.
    destruct (lu_forward m (map step rest)) as [u'|] eqn:EU; [|discriminate]; injection E as <-.
    assert (IN : forall i, i < S m -> In (nth i rows no_row) rows) by (intros i Hi; apply nth_In; lia).
    assert (EP : nth r rows no_row = (piv, b)) by (symmetry; exact (NS 0 ltac:(lia))).
    assert (LPB : length piv = S m /\ length b = w).
    { assert (Q := QR _ (IN r Hr)); rewrite EP in Q; exact Q. }
    destruct LPB as [LP Lb].
    assert (NR : forall i, i < m -> nth i rest no_row = nth (exchanged r (S i)) rows no_row)
      by (intros i Hi; exact (NS (S i) ltac:(lia))).
    assert (QRest : forall i, i < m -> length (fst (nth i rest no_row)) = S m /\ length (snd (nth i rest no_row)) = w).
    { intros i Hi; rewrite NR by exact Hi; apply QR, IN, exchanged_lt; lia. }
    assert (NM : forall i, i < m -> nth i (map step rest) no_row = step (nth i rest no_row)).
    { intros i Hi; rewrite (nth_indep _ no_row (step no_row)) by (rewrite map_length; lia); apply map_nth. }
    destruct (IH (map step rest) u') as (p' & L' & e' & (OP1 & OP2) & LU' & LW' & (F1 & F2 & F3 & F4) & (D1 & D2 & D3 & D4) & FY); [rewrite map_length; exact LS| |exact EU|].
    { intros rb Hrb; apply (In_nth _ _ no_row) in Hrb; destruct Hrb as (i & Hi & <-); rewrite map_length, LS in Hi.
      rewrite NM by exact Hi; destruct (QRest i Hi) as [Q1 Q2]; unfold step; cbn [fst snd].
      assert (T : forall v : vec F, length v = S m -> length (tl v) = m)
        by (intros [|? v] Lv; [discriminate Lv|injection Lv as Lv; exact Lv]).
      rewrite !axpy_length; rewrite ?T by assumption; auto; congruence. }
    set (q := fun i => exchanged r (S (p' i))).
    set (coeff := fun i => nmul (nth 0 (fst (nth (q i) rows no_row)) n0) (ndiv n1 (nth 0 piv n0))).
    set (p := fun k => match k with O => r | S i => q i end).
    set (L := fun i k => match i with
                         | O => n0
                         | S i' => match k with O => coeff i' | S k' => L' i' k' end
                         end).
    assert (QL : forall i, i < m -> q i < S m) by (intros i Hi; apply exchanged_lt; [exact Hr|specialize (OP1 i Hi); lia]).
    assert (RED : forall i j, i < m -> j < m ->
      nth j (fst (nth (p' i) (map step rest) no_row)) n0
      = nadd (nmul (nneg (coeff i)) (nth (S j) piv n0)) (nth (S j) (fst (nth (q i) rows no_row)) n0)).
    { intros i j Hi Hj; assert (Hp := OP1 i Hi); rewrite NM by exact Hp; destruct (QRest _ Hp) as [Q1 _].
      unfold step; cbn [fst]; rewrite nth_axpy; rewrite ?nth_tl, ?hd_nth.
      - rewrite NR by exact Hp; reflexivity.
      - destruct piv, (fst (nth (p' i) rest no_row)); cbn [length tl] in *; lia.
      - destruct (fst (nth (p' i) rest no_row)); cbn [length tl] in *; lia. }
    assert (REDY : forall i c, i < m -> c < w ->
      nth c (snd (nth (p' i) (map step rest) no_row)) n0
      = nadd (nmul (nneg (coeff i)) (nth c b n0)) (nth c (snd (nth (q i) rows no_row)) n0)).
    { intros i c Hi Hc; assert (Hp := OP1 i Hi); rewrite NM by exact Hp; destruct (QRest _ Hp) as [_ Q2].
      unfold step; cbn [snd]; rewrite nth_axpy by lia; rewrite ?hd_nth.
      rewrite NR by exact Hp; reflexivity. }
    set (e := fun k => match k with O => r | S k' => e' k' end).
    assert (NH : forall x, x < S m -> nth x heads n0 = nth 0 (fst (nth x rows no_row)) n0).
    { intros x Hx; rewrite <- hd_nth.
      rewrite (nth_indep heads n0 (hd n0 (fst no_row))) by lia.
      exact (map_nth (fun rb => hd n0 (fst rb)) rows no_row x). }
    assert (U0 : forall j, upper ((piv, b) :: u') 0 j = nth j piv n0) by (intros j; unfold upper; rewrite Nat.sub_0_r; reflexivity).
    assert (US : forall k j, upper ((piv, b) :: u') (S k) (S j) = upper u' k j) by reflexivity.
    assert (CH : forall i k, i < m -> k < m ->
      chain (L (S i)) (fun j => upper ((piv, b) :: u') j (S k)) (S k) (nth (S k) (fst (nth (p (S i)) rows no_row)) n0)
      = chain (L' i) (fun j => upper u' j k) k (nth k (fst (nth (p' i) (map step rest) no_row)) n0)).
    { intros i k Hi Hk; rewrite chain_S, RED by assumption; rewrite U0; reflexivity. }
    assert (AR : forall k i, arranged e (S k) (S i) = exchanged r (S (arranged e' k i))) by (intros k i; rewrite arranged_S; reflexivity).
    exists p, L, e; split; [|split; [cbn [length]; lia|split; [|split; [|split]]]].
    + split.
      * intros [|k] Hk; [exact Hr|apply QL; lia].
      * intros [|i] [|j] Hi Hj Epq; auto; cbn [p] in Epq.
        -- apply (exchanged_inj r 0 (S (p' j))) in Epq; discriminate.
        -- apply (exchanged_inj r (S (p' i)) 0) in Epq; discriminate.
        -- apply (exchanged_inj r (S (p' i)) (S (p' j))) in Epq; injection Epq as Epq; f_equal; apply OP2; auto; lia.
    + intros [|k] Hk; cbn [nth fst]; [lia|]; rewrite LW' by lia; lia.
    + split; [|split; [|split]].
      * intros [|k] [|j] Hkj; try lia; [rewrite U0; cbn [chain seq fold_left p]; rewrite EP; reflexivity
                                       |rewrite U0; cbn [chain seq fold_left p]; rewrite EP; reflexivity|].
        rewrite US, F1 by lia; rewrite chain_S, U0; cbn [L p]; rewrite RED by lia; reflexivity.
      * intros [|i] [|k] Hik; try lia; [cbn [L chain seq fold_left p]; rewrite U0; reflexivity|].
        rewrite CH by lia; rewrite US; cbn [L]; apply F2; lia.
      * intros [|k] Hk; [rewrite U0, <- hd_nth; exact NZ|]; rewrite US; apply F3; lia.
      * intros [|i] [|k] Hik; try lia.
        -- cbn [chain seq fold_left p]; rewrite U0.
           assert (B := Big (q i) (QL i ltac:(lia))); rewrite (NH (q i) (QL i ltac:(lia))), (NH r Hr), EP in B; exact B.
        -- rewrite CH by lia; rewrite US; apply F4; lia.
    + assert (H0 : forall i, i < m -> nth (q i) heads n0 = chain (L (S i)) (fun x => upper ((piv, b) :: u') x 0) 0 (nth 0 (fst (nth (p (S i)) rows no_row)) n0)).
      { intros i Hi; cbn [chain seq fold_left p]; apply (NH (q i)), QL, Hi. }
      assert (HR : nth r heads n0 = upper ((piv, b) :: u') 0 0) by (rewrite U0, (NH r Hr), EP; reflexivity).
      split; [|split; [|split]].
      * intros [|k] Hk; cbn [e]; [lia|]; specialize (D1 k ltac:(lia)); lia.
      * intros [|i] Hi; [rewrite arranged_S; reflexivity|]; rewrite AR, <- D2 by lia; reflexivity.
      * intros [|k] [|i] j Hi Hj Ea; try lia.
        -- cbn [arranged] in Ea; change (0 + j) with j in Ea; change (p (S i)) with (q i) in Ea.
           rewrite <- H0, <- HR by lia; rewrite <- Ea; apply Ties, Hj.
        -- change (S k + j) with (S (k + j)) in Ea; rewrite AR in Ea.
           apply (exchanged_inj r _ (S (p' i))) in Ea; injection Ea as Ea.
           rewrite CH by lia; rewrite US; apply (D3 k i j); auto; lia.
      * intros [|k] [|i] Hi Hj Ea; try lia.
        -- cbn [arranged] in Ea; change (p (S i)) with (q i) in Ea.
           rewrite <- H0, <- HR by lia; rewrite <- Ea; apply First, Hj.
        -- rewrite AR in Ea.
           apply (exchanged_inj r _ (S (p' i))) in Ea; injection Ea as Ea.
           rewrite CH by lia; rewrite US; apply (D4 k i); auto; lia.
    + intros [|k] c Hk Hc.
      * cbn [chain seq fold_left p]; rewrite EP; reflexivity.
      * change (right_side ((piv, b) :: u') (S k) c) with (right_side u' k c); rewrite FY by lia; rewrite chain_S.
        rewrite REDY by lia; reflexivity.
Qed.

Lemma forward_stuck w : forall m (rows : list (vec F * vec F)), length rows = m ->
  (forall rb, In rb rows -> length (fst rb) = m /\ length (snd rb) = w) -> lu_forward m rows = None ->
  exists p L U last, order_of m p /\ stuck m (fun i j => nth j (fst (nth i rows no_row)) n0) p L U last.
Proof using IR TR.
  induction m as [|m IH]; intros rows LR QR E; [discriminate E|].
  cbn [lu_forward] in E; set (heads := map (fun rb => hd n0 (fst rb)) rows) in E.
    assert (LH : length heads = S m) by (unfold heads; rewrite map_length; exact LR).
    destruct (icamax_largest heads) as (Hr & Big); [destruct heads; [discriminate LH|congruence]|].
    set (r := icamax heads) in *; rewrite LH in Hr, Big.
    assert (NS : forall i, i < S m -> nth i (swap_rows rows r) no_row = nth (exchanged r i) rows no_row)
      by (intros i Hi; apply nth_swap; lia).
    assert (LS : length (swap_rows rows r) = S m) by (rewrite swap_rows_length; exact LR).
    destruct (swap_rows rows r) as [|[piv b] rest] eqn:ER; [discriminate LS|]; cbn [length] in LS; injection LS as LS.
    assert (EP : nth r rows no_row = (piv, b)) by (symmetry; exact (NS 0 ltac:(lia))).
    assert (NH : forall x, x < S m -> nth x heads n0 = nth 0 (fst (nth x rows no_row)) n0).
    { intros x Hx; rewrite <- hd_nth.
      rewrite (nth_indep heads n0 (hd n0 (fst no_row))) by lia.
      exact (map_nth (fun rb => hd n0 (fst rb)) rows no_row x). }
    destruct (neqb (hd n0 piv) n0) eqn:NZ.
    { exists (exchanged r), (fun _ _ => n0), (fun _ _ => n0), 0.
      split; [split; [intros k Hk; apply exchanged_lt; assumption|intros i j _ _; apply exchanged_inj]|].
      split; [lia|]; do 4 (split; [intros; lia|]).
      change (exchanged r 0) with r; cbn [chain seq fold_left]; split; [rewrite EP, <- hd_nth; exact NZ|].
      intros i Hi; assert (B := Big (exchanged r i) (exchanged_lt r i (S m) Hr (proj2 Hi))).
      rewrite (NH _ (exchanged_lt r i (S m) Hr (proj2 Hi))), (NH r Hr) in B; exact B. }
    set (step := fun rb : vec F * vec F =>
      (axpy (nneg (nmul (hd n0 (fst rb)) (ndiv n1 (hd n0 piv)))) (tl piv) (tl (fst rb)),
       axpy (nneg (nmul (hd n0 (fst rb)) (ndiv n1 (hd n0 piv)))) b (snd rb))).
    change (match lu_forward m (map step rest) with Some u0 => Some ((piv, b) :: u0) | None => None end = None) in E.
    destruct (lu_forward m (map step rest)) as [u'|] eqn:EU; [discriminate|]; clear E.
    assert (IN : forall i, i < S m -> In (nth i rows no_row) rows) by (intros i Hi; apply nth_In; lia).
    assert (LPB : length piv = S m /\ length b = w).
    { assert (Q := QR _ (IN r Hr)); rewrite EP in Q; exact Q. }
    destruct LPB as [LP Lb].
    assert (NR : forall i, i < m -> nth i rest no_row = nth (exchanged r (S i)) rows no_row)
      by (intros i Hi; exact (NS (S i) ltac:(lia))).
    assert (QRest : forall i, i < m -> length (fst (nth i rest no_row)) = S m /\ length (snd (nth i rest no_row)) = w).
    { intros i Hi; rewrite NR by exact Hi; apply QR, IN, exchanged_lt; lia. }
    assert (NM : forall i, i < m -> nth i (map step rest) no_row = step (nth i rest no_row)).
    { intros i Hi; rewrite (nth_indep _ no_row (step no_row)) by (rewrite map_length; lia); apply map_nth. }
    destruct (IH (map step rest)) as (p' & L' & U' & last & (OP1 & OP2) & HL & F1 & F2 & F3 & F4 & F5 & F6); [rewrite map_length; exact LS| |exact EU|].
    { intros rb Hrb; apply (In_nth _ _ no_row) in Hrb; destruct Hrb as (i & Hi & <-); rewrite map_length, LS in Hi.
      rewrite NM by exact Hi; destruct (QRest i Hi) as [Q1 Q2]; unfold step; cbn [fst snd].
      assert (T : forall v : vec F, length v = S m -> length (tl v) = m)
        by (intros [|? v] Lv; [discriminate Lv|injection Lv as Lv; exact Lv]).
      rewrite !axpy_length; rewrite ?T by assumption; auto; congruence. }
    set (q := fun i => exchanged r (S (p' i))).
    set (coeff := fun i => nmul (nth 0 (fst (nth (q i) rows no_row)) n0) (ndiv n1 (nth 0 piv n0))).
    set (p := fun k => match k with O => r | S i => q i end).
    set (L := fun i k => match i with
                         | O => n0
                         | S i' => match k with O => coeff i' | S k' => L' i' k' end
                         end).
    assert (QL : forall i, i < m -> q i < S m) by (intros i Hi; apply exchanged_lt; [exact Hr|specialize (OP1 i Hi); lia]).
    assert (RED : forall i j, i < m -> j < m ->
      nth j (fst (nth (p' i) (map step rest) no_row)) n0
      = nadd (nmul (nneg (coeff i)) (nth (S j) piv n0)) (nth (S j) (fst (nth (q i) rows no_row)) n0)).
    { intros i j Hi Hj; assert (Hp := OP1 i Hi); rewrite NM by exact Hp; destruct (QRest _ Hp) as [Q1 _].
      unfold step; cbn [fst]; rewrite nth_axpy; rewrite ?nth_tl, ?hd_nth.
      - rewrite NR by exact Hp; reflexivity.
      - destruct piv, (fst (nth (p' i) rest no_row)); cbn [length tl] in *; lia.
      - destruct (fst (nth (p' i) rest no_row)); cbn [length tl] in *; lia. }
    set (U := fun k j => match k with O => nth j piv n0 | S k' => U' k' (j - 1) end).
    assert (US : forall k j, U (S k) (S j) = U' k j) by (intros k j; cbn [U]; rewrite Nat.sub_succ, Nat.sub_0_r; reflexivity).
    assert (CE : forall l v v' k x, (forall i, i < k -> v i = v' i) -> chain l v k x = chain l v' k x).
    { intros l v v' k x Q; unfold chain; assert (Q' : forall i, In i (seq 0 k) -> v i = v' i) by (intros i Hi; apply in_seq in Hi; apply Q; lia).
      revert x; induction (seq 0 k) as [|i s IHs]; intros x; [reflexivity|].
      cbn [fold_left]; rewrite (Q' i) by (left; reflexivity); apply IHs; intros j Hj; apply Q'; right; exact Hj. }
    assert (CH : forall i k j, i < m -> j < m ->
        chain (L (S i)) (fun x => U x (S j)) (S k) (nth (S j) (fst (nth (p (S i)) rows no_row)) n0)
        = chain (L' i) (fun x => U' x j) k (nth j (fst (nth (p' i) (map step rest) no_row)) n0)).
    { intros i k j Hi Hj; rewrite chain_S, RED by assumption; apply CE; intros x _; apply US. }
    exists p, L, U, (S last); split.
    + split.
      * intros [|k] Hk; [exact Hr|apply QL; lia].
      * intros [|i] [|j] Hi Hj Epq; auto; cbn [p] in Epq.
        -- apply (exchanged_inj r 0 (S (p' j))) in Epq; discriminate.
        -- apply (exchanged_inj r (S (p' i)) 0) in Epq; discriminate.
        -- apply (exchanged_inj r (S (p' i)) (S (p' j))) in Epq; injection Epq as Epq; f_equal; apply OP2; auto; lia.
    + split; [lia|]; split; [|split; [|split; [|split; [|split]]]].
      * intros [|k] [|j] HK Hkj; try lia; [cbn [chain seq fold_left p U]; rewrite EP; reflexivity
                                          |cbn [chain seq fold_left p U]; rewrite EP; reflexivity|].
        rewrite CH by lia; rewrite US; apply F1; lia.
      * intros [|i] [|k] HK Hik; try lia; [cbn [L chain seq fold_left p U]; reflexivity|].
        rewrite CH by lia; rewrite US; cbn [L]; apply F2; lia.
      * intros [|k] Hk; [cbn [U]; rewrite <- hd_nth; exact NZ|]; rewrite US; apply F3; lia.
      * intros [|i] [|k] HK Hik; try lia.
        -- cbn [chain seq fold_left p U].
           assert (B := Big (q i) (QL i ltac:(lia))); rewrite (NH (q i) (QL i ltac:(lia))), (NH r Hr), EP in B; exact B.
        -- rewrite CH by lia; rewrite US; apply F4; lia.
      * rewrite CH by lia; exact F5.
      * intros [|i] Hi; [lia|]; rewrite !CH by lia; apply F6; lia.
Qed.

Lemma fold_right_map {T S' A} (f : S' -> A -> A) (g : T -> S') a : forall l,
  fold_right f a (map g l) = fold_right (fun x => f (g x)) a l.
Proof using. induction l as [|x l IH]; [reflexivity|]; cbn [map fold_right]; rewrite IH; reflexivity. Qed.
Lemma fold_axpy w c (b : vec F) : c < w -> length b = w -> forall (t : vec F) (xs : mat F), length t = length xs ->
  (forall r, In r xs -> length r = w) ->
  length (fold_right (fun (ux : F * vec F) acc => axpy (nneg (fst ux)) (snd ux) acc) b (combine t xs)) = w /\
  nth c (fold_right (fun (ux : F * vec F) acc => axpy (nneg (fst ux)) (snd ux) acc) b (combine t xs)) n0
  = fold_right (fun i acc => nadd (nmul (nneg (nth i t n0)) (nth c (nth i xs []) n0)) acc) (nth c b n0) (seq 0 (length t)).
Proof using.
  intros Hc Lb; induction t as [|t0 t IH]; intros [|x xs] L Q; try discriminate L; [split; [exact Lb|reflexivity]|].
  destruct (IH xs) as [I1 I2]; [cbn [length] in L; congruence|intros r Hr; apply Q; right; exact Hr|].
  assert (Lx := Q x (or_introl eq_refl)).
  cbn [combine fold_right fst snd length seq nth]; split.
  - eapply eq_trans; [apply axpy_length, (eq_trans Lx), eq_sym, I1|exact I1].
  - eapply eq_trans; [apply nth_axpy; [exact (eq_trans Lx (eq_sym I1))|rewrite I1; exact Hc]|].
    f_equal; eapply eq_trans; [exact I2|].
    rewrite <- seq_shift, fold_right_map; reflexivity.
Qed.

Lemma chain_down_S l v k n start : chain_down l v (S k) (S n) start = chain_down (fun i => l (S i)) (fun i => v (S i)) k n start.
Proof using.
  unfold chain_down; change (S n - S (S k)) with (n - S k); rewrite <- seq_shift.
  induction (seq (S k) (n - S k)) as [|i s IH]; [reflexivity|]; cbn [map fold_right]; rewrite IH; reflexivity.
Qed.

Lemma backward_entries w : forall u m, length u = m ->
  (forall k, k < m -> length (fst (nth k u no_row)) = m - k) -> (forall rb, In rb u -> length (snd rb) = w) ->
  forall k c, k < m -> c < w ->
  entry (lu_backward u) k c
  = ndiv (chain_down (upper u k) (fun i => entry (lu_backward u) i c) k m (right_side u k c)) (upper u k k).
Proof using.
  induction u as [|[row b] u IH]; intros m <- LW LB k c Hk Hc; cbn [length] in Hk; [lia|].
  assert (LB' : forall rb, In rb u -> length (snd rb) = w) by (intros rb H; apply LB; right; exact H).
  assert (LX := lu_backward_rows w u LB').
  destruct k as [|k].
  - assert (Lr := LW 0 ltac:(cbn [length]; lia)); cbn [nth fst length] in Lr; rewrite Nat.sub_0_r in Lr.
    destruct row as [|d t]; [discriminate Lr|]; injection Lr as Lr.
    destruct (fold_axpy w c b Hc (LB _ (or_introl eq_refl)) t (lu_backward u)) as [G1 G2];
      [rewrite lu_backward_length; exact Lr|exact LX|].
    unfold entry at 1; cbn [lu_backward nth tl hd]; unfold vdiv.
    eapply eq_trans.
    + rewrite (nth_indep _ n0 (ndiv n0 d)) by (rewrite map_length; eapply Nat.lt_le_trans; [exact Hc|rewrite <- G1; apply le_n]).
      exact (map_nth (fun x => ndiv x d) _ n0 c).
    + change (upper ((d :: t, b) :: u) 0 0) with d; change (right_side ((d :: t, b) :: u) 0 c) with (nth c b n0).
      f_equal; eapply eq_trans; [exact G2|].
      unfold chain_down; cbn [length]; replace (S (length u) - 1) with (length t) by lia; rewrite <- seq_shift, fold_right_map; reflexivity.
  - assert (E := IH (length u) eq_refl (fun i Hi => LW (S i) ltac:(cbn [length]; lia)) LB' k c ltac:(lia) Hc).
    change (entry (lu_backward ((row, b) :: u)) (S k) c) with (entry (lu_backward u) k c); rewrite E.
    cbn [length]; rewrite chain_down_S; reflexivity.
Qed.

(** The inverse. *)
Lemma inverse_factors n (A H : mat F) : square_of n A -> lu_inverse A = Some H ->
  exists p L U Y e, order_of n p /\ factors n (entry A) p L U /\ first_largest n (entry A) p L U e /\
    (forall k c, k < n -> c < n -> Y k c = chain (L k) (fun i => Y i c) k (if Nat.eqb (p k) c then n1 else n0)) /\
    (forall k c, k < n -> c < n -> entry H k c = ndiv (chain_down (U k) (fun i => entry H i c) k n (Y k c)) (U k k)).
Proof using IR TR EN.
  intros [LA QA]; unfold lu_inverse; rewrite LA; set (rows := combine A (identity n)).
  assert (LI : length (@identity F NF n) = n) by apply identity_length.
  assert (LR : length rows = n) by (unfold rows; rewrite combine_length, LA, LI; apply Nat.min_id).
  assert (QI : forall r, In r (@identity F NF n) -> length r = n).
  { intros r Hr; apply in_map_iff in Hr; destruct Hr as (i & <- & _); rewrite map_length, seq_length; reflexivity. }
  assert (QR : forall rb, In rb rows -> length (fst rb) = n /\ length (snd rb) = n).
  { intros [x y] Hr; split; [apply QA; exact (in_combine_l _ _ _ _ Hr)|apply QI; exact (in_combine_r _ _ _ _ Hr)]. }
  assert (NA : forall i, nth i rows no_row = (nth i A [], nth i (@identity F NF n) []))
    by (intros i; apply combine_nth; rewrite LI; exact LA).
  destruct (lu_forward n rows) as [u|] eqn:EU; intros EH; [|discriminate]; injection EH as <-.
  destruct (forward_factors n n rows u LR QR EU) as (p & L & e & (O1 & O2) & LU & LW & FA & FL & FY).
  exists p, L, (upper u), (right_side u), e; split; [split; [exact O1|exact O2]|]; split; [|split; [|split]].
  - destruct FA as (F1 & F2 & F3 & F4); split; [|split; [|split]].
    + intros k j Hkj; rewrite (F1 k j Hkj), NA; reflexivity.
    + intros i k Hik; rewrite (F2 i k Hik), NA; reflexivity.
    + exact F3.
    + intros i k Hik; assert (Q := F4 i k Hik); rewrite NA in Q; exact Q.
  - destruct FL as (D1 & D2 & D3 & D4); split; [exact D1|split; [exact D2|split]].
    + intros k i j Hi Hj Ea; assert (Q := D3 k i j Hi Hj Ea); rewrite NA in Q; exact Q.
    + intros k i Hi Hj Ea; assert (Q := D4 k i Hi Hj Ea); rewrite NA in Q; exact Q.
  - intros k c Hk Hc; rewrite (FY k c Hk Hc), NA; cbn [snd]; f_equal.
    unfold identity; rewrite (nth_table (fun i => map (fun j => if Nat.eqb i j then n1 else n0) (seq 0 n))) by (apply O1, Hk).
    apply (nth_table (fun j => if Nat.eqb (p k) j then n1 else n0)), Hc.
  - intros k c Hk Hc; apply (backward_entries n); auto.
    apply (lu_forward_rows n n rows u EU); intros rb Hr; apply (QR rb Hr).
Qed.
End Factors.

(** ** On doubles *)
Lemma greater_irreflexive (x : f64) : ngtb x x = false.
Proof.
  unfold ngtb; destruct (nltb x x) eqn:E; [|reflexivity].
  apply ltb_true_inv in E; destruct E as (_ & _ & E); lra.
Qed.
Lemma greater_negative_transitive (x b c : f64) : ngtb x b = false -> ngtb c b = true -> ngtb x c = false.
Proof.
  unfold ngtb; intros E1 E2; destruct (nltb c x) eqn:E; [|reflexivity].
  apply ltb_true_inv in E; apply ltb_true_inv in E2; destruct E as (Nc & Nx & K), E2 as (Nb & _ & K2).
  apply ltb_key_false in E1; [lra|exact Nb|exact Nx].
Qed.

Lemma not_greater_not_equal (x b c : f64) : ngtb x b = false -> ngtb c b = true -> neqb x c = false.
Proof.
  unfold ngtb; intros E1 E2; destruct (neqb x c) eqn:E; [|reflexivity].
  apply ltb_true_inv in E2; destruct E2 as (Nb & Nc & K2).
  assert (Nx : isnan x = false) by (destruct (isnan x) eqn:X; [rewrite eqb_nan in E by auto; discriminate|reflexivity]).
  apply eqb_key in E; [|exact Nx|exact Nc]; apply ltb_key_false in E1; [lra|exact Nb|exact Nx].
Qed.

Theorem C105_inverse : forall n (A H : mat f64), square_of n A -> lu_inverse A = Some H ->
  square_of n H /\
  exists p L U Y e, order_of n p /\ factors n (entry A) p L U /\ first_largest n (entry A) p L U e /\
    (forall k c, k < n -> c < n -> Y k c = chain (L k) (fun i => Y i c) k (if Nat.eqb (p k) c then n1 else n0)) /\
    (forall k c, k < n -> c < n -> entry H k c = ndiv (chain_down (U k) (fun i => entry H i c) k n (Y k c)) (U k k)).
Proof.
  intros n A H QA EH; split; [exact (lu_inverse_square n A H (proj1 QA) EH)|].
  exact (inverse_factors greater_irreflexive greater_negative_transitive not_greater_not_equal n A H QA EH).
Qed.
Print Assumptions C105_inverse.

(** ** Only one decomposition fits the description *)
Section Determined.
Context {F : Type} {NF : Num F}.
Context (TOT : forall a b x y : F, ngtb a x = true -> ngtb b y = true ->
  ngtb a b = false -> ngtb b a = false -> neqb a b = true).

Lemma arranged_same e e' : forall k, (forall x, x < k -> e x = e' x) -> forall i, arranged e k i = arranged e' k i.
Proof using.
  induction k as [|k IH]; intros Q i; [reflexivity|]; cbn [arranged].
  rewrite (Q k) by lia; apply IH; intros x Hx; apply Q; lia.
Qed.
Lemma arranged_inj e : forall k i j, arranged e k i = arranged e k j -> i = j.
Proof using.
  induction k as [|k IH]; intros i j E; [exact E|]; cbn [arranged] in E; apply IH in E; revert E.
  destruct (Nat.eqb_spec i k), (Nat.eqb_spec j k), (Nat.eqb_spec i (k + e k)), (Nat.eqb_spec j (k + e k)); lia.
Qed.
Lemma arranged_kept e i : forall n k, i < k -> k <= n -> arranged e n i = arranged e k i.
Proof using.
  induction n as [|n IH]; intros k Hi Hk; [replace k with 0 by lia; reflexivity|].
  destruct (Nat.eq_dec k (S n)) as [->|D]; [reflexivity|]; cbn [arranged].
  destruct (Nat.eqb_spec i n), (Nat.eqb_spec i (n + e n)); try lia; apply IH; lia.
Qed.
Lemma arranged_later e n k j : (forall x, x < n -> x + e x < n) -> k <= j < n ->
  forall m, k <= m <= n -> exists i, k <= i < n /\ arranged e m i = arranged e k j.
Proof using.
  intros B Hj; induction m as [|m IH]; intros Hm.
  - replace k with 0 by lia; exists j; split; [lia|reflexivity].
  - destruct (Nat.eq_dec k (S m)) as [->|D]; [exists j; split; [lia|reflexivity]|].
    destruct IH as (i & Hi & E); [lia|]; assert (Bm := B m ltac:(lia)).
    exists (if Nat.eqb i m then m + e m else if Nat.eqb i (m + e m) then m else i); split.
    + destruct (Nat.eqb_spec i m), (Nat.eqb_spec i (m + e m)); lia.
    + cbn [arranged]; rewrite <- E; f_equal.
      destruct (Nat.eqb_spec i m) as [->|D1].
      * rewrite (Nat.eqb_refl (m + e m)); destruct (Nat.eqb_spec (m + e m) m); lia.
      * destruct (Nat.eqb_spec i (m + e m)) as [->|D2]; [rewrite Nat.eqb_refl; reflexivity|].
        destruct (Nat.eqb_spec i m), (Nat.eqb_spec i (m + e m)); lia.
Qed.
Lemma chain_same (l v l' v' : nat -> F) k x : (forall i, i < k -> l i = l' i) -> (forall i, i < k -> v i = v' i) ->
  chain l v k x = chain l' v' k x.
Proof using.
  intros Q1 Q2; unfold chain.
  assert (Q : forall i, In i (seq 0 k) -> l i = l' i /\ v i = v' i)
    by (intros i Hi; apply in_seq in Hi; split; [apply Q1|apply Q2]; lia).
  clear Q1 Q2; revert x; induction (seq 0 k) as [|i s IH]; intros x; [reflexivity|].
  cbn [fold_left]; destruct (Q i (or_introl eq_refl)) as [-> ->]; apply IH; intros j Hj; apply Q; right; exact Hj.
Qed.

Context (n : nat) (a : nat -> nat -> F).
(** Two decompositions agree on the rows before [k] and the columns before [k]. *)
Definition agree (p : nat -> nat) (L U : nat -> nat -> F) (e : nat -> nat)
  (p' : nat -> nat) (L' U' : nat -> nat -> F) (e' : nat -> nat) (k : nat) : Prop :=
  forall x, x < k -> e x = e' x /\ (forall j, x <= j < n -> U x j = U' x j) /\
    forall i i', x < i < n -> x < i' < n -> p i = p' i' -> L i x = L' i' x.

Lemma agree_sym p L U e p' L' U' e' k : agree p L U e p' L' U' e' k -> agree p' L' U' e' p L U e k.
Proof using.
  intros A x Hx; destruct (A x Hx) as (A1 & A2 & A3); split; [auto|]; split.
  - intros j Hj; symmetry; apply A2, Hj.
  - intros i i' Hi Hi' E; symmetry; apply A3; auto.
Qed.
Lemma agree_left p L U e p' L' U' e' k i i' : agree p L U e p' L' U' e' k -> k <= i < n -> k <= i' < n -> p i = p' i' ->
  forall j, k <= j < n ->
  chain (L i) (fun x => U x j) k (a (p i) j) = chain (L' i') (fun x => U' x j) k (a (p' i') j).
Proof using.
  intros A Hi Hi' E j Hj; rewrite E; apply chain_same; intros x Hx; destruct (A x Hx) as (_ & A2 & A3).
  - apply A3; auto; lia.
  - apply A2; lia.
Qed.
Lemma pivot_row p L U e k : first_largest n a p L U e -> k < n -> p k = arranged e k (k + e k).
Proof using.
  intros (_ & D2 & _) Hk; rewrite D2 by exact Hk; rewrite (arranged_kept e k n (S k)) by lia.
  cbn [arranged]; rewrite Nat.eqb_refl; reflexivity.
Qed.
Lemma not_before p L U e p' L' U' e' k : factors n a p L U -> first_largest n a p L U e ->
  factors n a p' L' U' -> first_largest n a p' L' U' e' ->
  agree p L U e p' L' U' e' k -> k < n -> ~ e k < e' k.
Proof using TOT.
  intros FA FL FA' FL' A Hk LT.
  assert (P := pivot_row _ _ _ _ _ FL Hk); assert (P' := pivot_row _ _ _ _ _ FL' Hk).
  destruct FA as (F1 & _ & _ & F4), FA' as (F1' & _ & _ & F4'), FL as (D1 & D2 & D3 & D4), FL' as (D1' & D2' & D3' & D4').
  assert (B := D1 k Hk); assert (B' := D1' k Hk).
  assert (AR : forall i, arranged e k i = arranged e' k i) by (apply arranged_same; intros x Hx; apply (A x Hx)).
  destruct (arranged_later e' n k (k + e k) D1' ltac:(lia) n ltac:(lia)) as (i2 & H2 & E2).
  destruct (arranged_later e n k (k + e' k) D1 ltac:(lia) n ltac:(lia)) as (i1 & H1 & E1).
  destruct (arranged_later e' n k k D1' ltac:(lia) n ltac:(lia)) as (i0 & H0 & E0).
  rewrite <- D2' in E2, E0 by lia; rewrite <- D2 in E1 by lia; rewrite AR in E1.
  assert (N2 : i2 <> k) by (intros ->; rewrite P' in E2; apply arranged_inj in E2; lia).
  assert (N1 : i1 <> k) by (intros ->; rewrite P, AR in E1; apply arranged_inj in E1; lia).
  assert (N0 : i0 <> k) by (intros ->; rewrite P' in E0; apply arranged_inj in E0; lia).
  assert (V1 := F1 k k ltac:(lia)); assert (V2 := F1' k k ltac:(lia)).
  rewrite (agree_left _ _ _ _ _ _ _ _ k k i2 A) in V1; [|lia|lia|rewrite P, E2, AR; reflexivity|lia].
  rewrite (agree_left _ _ _ _ _ _ _ _ k k i1 (agree_sym _ _ _ _ _ _ _ _ _ A)) in V2; [|lia|lia|rewrite P', E1; reflexivity|lia].
  assert (Q1 := F4 i1 k ltac:(lia)); rewrite <- V2 in Q1.
  assert (Q2 := F4' i2 k ltac:(lia)); rewrite <- V1 in Q2.
  assert (Q3 := D3' k i2 (e k) ltac:(lia) LT (eq_sym E2)); rewrite <- V1 in Q3.
  assert (Q4 := D4' k i0 ltac:(lia) ltac:(lia) (eq_sym E0)).
  destruct (Nat.eq_dec (e k) 0) as [Z|Z].
  - assert (V0 := F1 k k ltac:(lia)).
    rewrite (agree_left _ _ _ _ _ _ _ _ k k i0 A) in V0; [|lia|lia|rewrite P, E0, AR, Z, Nat.add_0_r; reflexivity|lia].
    rewrite <- V0 in Q4; congruence.
  - destruct (arranged_later e n k k D1 ltac:(lia) n ltac:(lia)) as (i3 & H3 & E3); rewrite <- D2 in E3 by lia.
    assert (N3 : i3 <> k) by (intros ->; rewrite P in E3; apply arranged_inj in E3; lia).
    assert (Q5 := D4 k i3 ltac:(lia) ltac:(lia) (eq_sym E3)).
    rewrite (TOT _ _ _ _ Q5 Q4) in Q3; [discriminate Q3|exact Q2|exact Q1].
Qed.
Lemma all_agree p L U e p' L' U' e' : factors n a p L U -> first_largest n a p L U e ->
  factors n a p' L' U' -> first_largest n a p' L' U' e' ->
  forall k, k <= n -> agree p L U e p' L' U' e' k.
Proof using TOT.
  intros FA FL FA' FL'; induction k as [|k IH]; intros Hk; [intros x Hx; lia|].
  assert (A := IH ltac:(lia)); intros x Hx; destruct (Nat.eq_dec x k) as [->|D]; [|apply A; lia].
  assert (EE : e k = e' k).
  { assert (G1 := not_before _ _ _ _ _ _ _ _ k FA FL FA' FL' A Hk).
    assert (G2 := not_before _ _ _ _ _ _ _ _ k FA' FL' FA FL (agree_sym _ _ _ _ _ _ _ _ _ A) Hk); lia. }
  assert (EP : p k = p' k).
  { rewrite (pivot_row _ _ _ _ _ FL Hk), (pivot_row _ _ _ _ _ FL' Hk), EE; apply arranged_same.
    intros y Hy; apply (A y Hy). }
  destruct FA as (F1 & F2 & _), FA' as (F1' & F2' & _).
  assert (EU : forall j, k <= j < n -> U k j = U' k j).
  { intros j Hj; rewrite (F1 k j Hj), (F1' k j Hj); apply (agree_left _ _ _ e _ _ _ e'); auto; lia. }
  split; [exact EE|]; split; [exact EU|].
  intros i i' Hi Hi' E; rewrite (F2 i k Hi), (F2' i' k Hi'), (EU k) by lia; f_equal.
  apply (agree_left _ _ _ e _ _ _ e'); auto; lia.
Qed.
End Determined.

Lemma greater_total (a b x y : f64) : ngtb a x = true -> ngtb b y = true ->
  ngtb a b = false -> ngtb b a = false -> neqb a b = true.
Proof.
  unfold ngtb; intros Ea Eb E1 E2.
  apply ltb_true_inv in Ea; apply ltb_true_inv in Eb; destruct Ea as (_ & Na & _), Eb as (_ & Nb & _).
  apply ltb_key_false in E1; [|exact Nb|exact Na]; apply ltb_key_false in E2; [|exact Na|exact Nb].
  apply eqb_key; [exact Na|exact Nb|lra].
Qed.
Theorem C105_determined : forall n (a : nat -> nat -> f64) p L U e p' L' U' e',
  factors n a p L U -> first_largest n a p L U e -> factors n a p' L' U' -> first_largest n a p' L' U' e' ->
  (forall k, k < n -> p k = p' k) /\ (forall k j, k <= j < n -> U k j = U' k j) /\
  (forall i k, k < i < n -> L i k = L' i k).
Proof.
  intros n a p L U e p' L' U' e' FA FL FA' FL'.
  assert (A := all_agree greater_total n a p L U e p' L' U' e' FA FL FA' FL' n (le_n n)).
  assert (EP : forall k, k < n -> p k = p' k).
  { intros k Hk; rewrite (proj1 (proj2 FL) k Hk), (proj1 (proj2 FL') k Hk); apply arranged_same; intros x Hx; apply (A x Hx). }
  split; [exact EP|]; split.
  - intros k j Hkj; apply (A k); lia.
  - intros i k Hik; apply (A k); try lia; apply EP; lia.
Qed.
Print Assumptions C105_determined.

Lemma stuck_entry (e d : f64) : neqb d n0 = true -> ngtb (nabs e) (nabs d) = false -> isnan e = true \/ neqb e n0 = true.
Proof.
  intros E0 G; destruct (isnan e) eqn:Ne; [left; reflexivity|right].
  assert (Nd : isnan d = false) by (destruct (isnan d) eqn:X; [rewrite eqb_nan in E0 by auto; discriminate|reflexivity]).
  assert (N0 : isnan (@n0 f64 _) = false) by reflexivity.
  apply eqb_key in E0; [|exact Nd|exact N0]; apply eqb_key; [exact Ne|exact N0|].
  unfold ngtb in G; apply ltb_key_false in G; [|rewrite abs_nan; exact Nd|rewrite abs_nan; exact Ne].
  rewrite !key_abs in G; rewrite E0 in G; replace (key (@n0 f64 _)) with 0%R in * by reflexivity.
  rewrite Rabs_R0 in G; assert (P := Rabs_pos (key e)).
  destruct (Req_dec (key e) 0) as [Z|Z]; [exact Z|]; apply Rabs_pos_lt in Z; lra.
Qed.

Theorem C105_no_inverse : forall n (A : mat f64), square_of n A -> lu_inverse A = None ->
  exists p L U last, order_of n p /\ stuck n (entry A) p L U last /\
    forall i, last <= i < n ->
      let e := chain (L i) (fun j => U j last) last (entry A (p i) last) in isnan e = true \/ neqb e n0 = true.
Proof.
  intros n A [LA QA]; unfold lu_inverse; rewrite LA; set (rows := combine A (identity n)).
  assert (LI : length (@identity f64 _ n) = n) by apply identity_length.
  assert (LR : length rows = n) by (unfold rows; rewrite combine_length, LA, LI; apply Nat.min_id).
  assert (QI : forall r, In r (@identity f64 _ n) -> length r = n).
  { intros r Hr; apply in_map_iff in Hr; destruct Hr as (i & <- & _); rewrite map_length, seq_length; reflexivity. }
  assert (QR : forall rb, In rb rows -> length (fst rb) = n /\ length (snd rb) = n).
  { intros [x y] Hr; split; [apply QA; exact (in_combine_l _ _ _ _ Hr)|apply QI; exact (in_combine_r _ _ _ _ Hr)]. }
  assert (NA : forall i, nth i rows no_row = (nth i A [], nth i (@identity f64 _ n) []))
    by (intros i; apply combine_nth; rewrite LI; exact LA).
  destruct (lu_forward n rows) as [u|] eqn:EU; intros EH; [discriminate|]; clear EH.
  destruct (forward_stuck greater_irreflexive greater_negative_transitive n n rows LR QR EU) as (p & L & U & last & OP & ST).
  assert (EN : forall i j, nth j (fst (nth i rows no_row)) n0 = entry A i j) by (intros i j; rewrite NA; reflexivity).
  exists p, L, U, last; split; [exact OP|]; destruct ST as (F0 & F1 & F2 & F3 & F4 & F5 & F6).
  assert (G5 := F5); rewrite EN in G5; split.
  - split; [exact F0|]; split; [|split; [|split; [|split; [|split]]]]; auto.
    + intros k j H1 H2; rewrite (F1 k j H1 H2), EN; reflexivity.
    + intros i k H1 H2; rewrite (F2 i k H1 H2), EN; reflexivity.
    + intros i k H1 H2; assert (Q := F4 i k H1 H2); rewrite EN in Q; exact Q.
    + intros i H1; assert (Q := F6 i H1); rewrite !EN in Q; exact Q.
  - intros i Hi; cbn zeta; destruct (Nat.eq_dec i last) as [->|NE]; [right; exact G5|].
    apply (stuck_entry _ _ G5); assert (Q := F6 i ltac:(lia)); rewrite !EN in Q; exact Q.
Qed.
Print Assumptions C105_no_inverse.

(** An inverse with a row exchange, one without inverse at its second column, and a
    NaN below a null entry, which is not taken as pivot. *)
Definition found (A : mat f64) : bool := match lu_inverse A with Some _ => true | None => false end.
Example C105_case :
  found [[Fz 0; Fz 2]; [Fz 1; Fz 1]] = true /\ found [[Fz 1; Fz 2]; [Fz 2; Fz 4]] = false /\
  found [[Fz 0; Fz 1]; [ndiv (Fz 0) (Fz 0); Fz 1]] = false.
Proof. repeat split; vm_compute; reflexivity. Qed.
Example C105_case_order : forall H, lu_inverse [[Fz 0; Fz 2]; [Fz 1; Fz 1]] = Some H ->
  exists p L U, order_of 2 p /\ factors 2 (entry [[Fz 0; Fz 2]; [Fz 1; Fz 1]]) p L U /\ p 0 = 1 /\ p 1 = 0.
Proof.
  intros H E; destruct (C105_inverse 2 [[Fz 0; Fz 2]; [Fz 1; Fz 1]] H) as (_ & p & L & U & Y & e & OP & FA & _); [|exact E|].
  - split; [reflexivity|]; intros r [<-|[<-|[]]]; reflexivity.
  - exists p, L, U; split; [exact OP|]; split; [exact FA|].
    destruct OP as [O1 O2]; assert (P0 := O1 0 ltac:(lia)); assert (P1 := O1 1 ltac:(lia)).
    assert (D : p 0 <> p 1) by (intros X; apply O2 in X; lia).
    assert (N : p 0 <> 0).
    { intros Z; destruct FA as (F1 & _ & F3 & _); assert (Q := F3 0 ltac:(lia)); rewrite (F1 0 0 ltac:(lia)), Z in Q.
      vm_compute in Q; discriminate Q. }
    lia.
Qed.
(** Two equal entries: the one of the first row is the pivot. *)
Definition equal_entries : nat -> nat -> f64 := entry [[Fz 1; Fz 1]; [nneg (Fz 1); Fz 2]].
Example C105_case_ties : forall H, lu_inverse [[Fz 1; Fz 1]; [nneg (Fz 1); Fz 2]] = Some H ->
  exists p L U e, factors 2 equal_entries p L U /\ first_largest 2 equal_entries p L U e /\ p 0 = 0 /\ p 1 = 1.
Proof.
  intros H E; destruct (C105_inverse 2 [[Fz 1; Fz 1]; [nneg (Fz 1); Fz 2]] H) as (_ & p & L & U & Y & e & _ & FA & FL & _); [|exact E|].
  - split; [reflexivity|]; intros r [<-|[<-|[]]]; reflexivity.
  - exists p, L, U, e; split; [exact FA|]; split; [exact FL|].
    destruct FL as (D1 & D2 & D3 & _); assert (B0 := D1 0 ltac:(lia)); assert (B1 := D1 1 ltac:(lia)).
    assert (Z1 : e 1 = 0) by lia; assert (P0 := D2 0 ltac:(lia)); assert (P1 := D2 1 ltac:(lia)).
    destruct (e 0) as [|[|x]] eqn:Z0; [| |lia]; cbn [arranged] in P0, P1; rewrite ?Z1, ?Z0 in P0, P1;
      cbn [Nat.eqb Nat.add] in P0, P1; rewrite ?Z0 in P0, P1; cbn [Nat.eqb Nat.add] in P0, P1; [split; assumption|exfalso].
    assert (Q := D3 0 1 0 ltac:(lia) ltac:(lia) (eq_sym P1)).
    destruct FA as (F1 & _); rewrite (F1 0 0 ltac:(lia)), P0, P1 in Q; vm_compute in Q; discriminate Q.
Qed.
Example C105_case_ties_found : found [[Fz 1; Fz 1]; [nneg (Fz 1); Fz 2]] = true.
Proof. vm_compute; reflexivity. Qed.
