(** Proofs about the 64-bit arithmetic of parallel_for. *)
From Coq Require Import List ZArith Lia Bool.
From Verif Require Import Base ParForSpec ParForModel ParForLoop ParForInit ParForStatic ParForMain PfIntModel.
Import ListNotations.
Local Open Scope Z_scope.

(** * Doubles *)
Lemma rne_le : forall p q n, 0 < q -> p <= n * q -> rne p q <= n.
Proof.
  intros p q n Hq H. unfold rne.
  pose proof (Z.div_mod p q ltac:(lia)) as D. pose proof (Z.mod_pos_bound p q Hq) as B.
  assert (F : p / q <= n) by (apply Z.div_le_upper_bound; lia).
  destruct (Z.eq_dec (p / q) n) as [E | E].
  - assert (p mod q = 0) by nia. rewrite H0. destruct (Z.ltb_spec (2 * 0) q); lia.
  - destruct (2 * (p mod q) <? q); [lia |]. destruct (q <? 2 * (p mod q)); [lia |]. destruct (Z.even (p / q)); lia.
Qed.

Lemma rne_gt : forall p q n, 0 < q -> q < 2 * (p - n * q) -> n + 1 <= rne p q.
Proof.
  intros p q n Hq H. unfold rne.
  pose proof (Z.div_mod p q ltac:(lia)) as D. pose proof (Z.mod_pos_bound p q Hq) as B.
  assert (F : n <= p / q) by (apply Z.div_le_lower_bound; lia).
  destruct (Z.eq_dec (p / q) n) as [E | E].
  - assert (p mod q = p - n * q) by nia. rewrite H0.
    destruct (Z.ltb_spec (2 * (p - n * q)) q); [lia |]. destruct (Z.ltb_spec q (2 * (p - n * q))); lia.
  - destruct (2 * (p mod q) <? q); [lia |]. destruct (q <? 2 * (p mod q)); [lia |]. destruct (Z.even (p / q)); lia.
Qed.

(** 2^e <= a/b < 2^(e+1), without negative exponents: for every s >= -e, ... *)
Lemma fexp_low : forall a b s, 0 < a -> 0 < b -> 0 <= s -> 0 <= fexp a b + s ->
  b * 2 ^ (fexp a b + s) <= a * 2 ^ s.
Proof.
  intros a b s Ha Hb Hs He. unfold fexp in *. set (l := Z.log2 a - Z.log2 b) in *.
  pose proof (Z.log2_spec a Ha) as (A1 & A2). pose proof (Z.log2_spec b Hb) as (B1 & B2).
  pose proof (Z.log2_nonneg a). pose proof (Z.log2_nonneg b).
  destruct (Z.leb_spec 0 l) as [L | L].
  - destruct (Z.leb_spec (b * 2 ^ l) a) as [C | C].
    + rewrite Z.pow_add_r by lia. pose proof (Z.pow_pos_nonneg 2 s). nia.
    + replace (l - 1 + s) with (s + (l - 1)) by lia.
      assert (b * 2 ^ (l - 1 + s) <= a * 2 ^ s); [| replace (s + (l - 1)) with (l - 1 + s) by lia; auto].
      (* a >= 2^la, b < 2^(lb+1) *)
      assert (E : 2 ^ (Z.succ (Z.log2 b)) * 2 ^ (l - 1 + s) = 2 ^ Z.log2 a * 2 ^ s).
      { rewrite <- !Z.pow_add_r by lia. f_equal. unfold l. lia. }
      pose proof (Z.pow_pos_nonneg 2 (l - 1 + s)). pose proof (Z.pow_pos_nonneg 2 s). nia.
  - destruct (Z.leb_spec b (a * 2 ^ (- l))) as [C | C].
    + replace s with (- l + (l + s)) at 2 by lia. rewrite (Z.pow_add_r 2 (- l)) by lia.
      pose proof (Z.pow_pos_nonneg 2 (l + s)). nia.
    + assert (E : 2 ^ (Z.succ (Z.log2 b)) * 2 ^ (l - 1 + s) = 2 ^ Z.log2 a * 2 ^ s).
      { rewrite <- !Z.pow_add_r by lia. f_equal. unfold l. lia. }
      pose proof (Z.pow_pos_nonneg 2 (l - 1 + s)). pose proof (Z.pow_pos_nonneg 2 s). nia.
Qed.

Lemma fexp_le : forall a b, 0 < a -> 0 < b -> fexp a b <= Z.log2 a.
Proof.
  intros a b Ha Hb. unfold fexp. pose proof (Z.log2_nonneg b).
  match goal with |- (if ?c then _ else _) <= _ => destruct c end; lia.
Qed.

Lemma ceil_div_spec : forall x y k, 0 < y -> (k - 1) * y < x -> x <= k * y -> ceil_div x y = k.
Proof.
  intros. unfold ceil_div. apply Z.le_antisymm.
  - apply Z.lt_succ_r. apply Z.div_lt_upper_bound; nia.
  - apply Z.div_le_lower_bound; nia.
Qed.
Lemma ceil_div_bounds : forall x y, 0 < y -> (ceil_div x y - 1) * y < x /\ x <= ceil_div x y * y.
Proof.
  intros x y Hy. unfold ceil_div. pose proof (Z.div_mod (x + y - 1) y ltac:(lia)).
  pose proof (Z.mod_pos_bound (x + y - 1) y Hy). split; nia.
Qed.

(** The rounded quotient has the exact ceiling when the dividend is below 2^53. *)
Lemma ddiv_ceil : forall a b, 0 < a < 2 ^ 53 -> 0 < b ->
  let '(m, s) := ddiv a b in 0 <= s /\ ceil_div m (2 ^ s) = ceil_div a b.
Proof.
  intros a b (Ha & Hu) Hb. unfold ddiv. destruct (Z.eqb_spec a 0); [lia |].
  assert (L : Z.log2 a <= 52).
  { assert (Z.log2 a < 53); [| lia]. apply Z.log2_lt_pow2; auto. }
  pose proof (fexp_le a b Ha Hb) as FE.
  set (s := 52 - fexp a b). assert (S0 : 0 <= s) by (unfold s; lia).
  destruct (Z.leb_spec 0 s); [| lia]. split; auto.
  pose proof (Z.pow_pos_nonneg 2 s ltac:(lia) S0) as PS.
  pose proof (ceil_div_bounds a b Hb) as (K1 & K2). set (k := ceil_div a b) in *.
  (* b < 2^(s+1) *)
  assert (BB : b < 2 * 2 ^ s).
  { pose proof (fexp_low a b s Ha Hb S0) as Q. specialize (Q ltac:(unfold s; lia)).
    replace (fexp a b + s) with 52 in Q by (unfold s; lia).
    assert (a * 2 ^ s < 2 ^ 53 * 2 ^ s) by nia.
    change (2 ^ 53) with (2 * 2 ^ 52) in *. assert (0 < 2 ^ 52) by (apply Z.pow_pos_nonneg; lia).
    nia. }
  apply ceil_div_spec; auto.
  - assert ((k - 1) * 2 ^ s + 1 <= rne (a * 2 ^ s) b); [| lia].
    apply rne_gt; auto. nia.
  - apply rne_le; auto. nia.
Qed.

Lemma dbl_big : forall z, 2 ^ 53 <= z -> 2 ^ 53 <= dbl z.
Proof.
  intros z H. unfold dbl. destruct (Z.ltb_spec z (2 ^ 53)); [lia |].
  assert (HZ : 0 < z) by (assert (0 < 2 ^ 53) by (apply Z.pow_pos_nonneg; lia); lia).
  assert (L : 53 <= Z.log2 z).
  { apply Z.log2_le_pow2; auto. }
  set (s := Z.log2 z - 52). pose proof (Z.log2_spec z HZ) as (A & _).
  assert (PS : 0 < 2 ^ s) by (apply Z.pow_pos_nonneg; unfold s; lia).
  assert (R : 2 ^ 52 <= rne z (2 ^ s)).
  { assert (F : 2 ^ 52 <= z / 2 ^ s).
    { apply Z.div_le_lower_bound; auto. rewrite <- Z.pow_add_r by (unfold s; lia).
      replace (s + 52) with (Z.log2 z) by (unfold s; lia). auto. }
    unfold rne. destruct (_ <? _); [auto |]. destruct (_ <? _); [lia |]. destruct (Z.even _); lia. }
  assert (2 <= 2 ^ s). { change 2 with (2 ^ 1) at 1. apply Z.pow_le_mono_r; unfold s; lia. }
  change (2 ^ 53) with (2 ^ 52 * 2). nia.
Qed.

Lemma lrint_ceil_exact : forall a b, 0 <= a < 2 ^ 53 -> 1 <= b -> lrint_ceil a b = ceil_div a b.
Proof.
  intros a b (Ha & Hu) Hb. unfold lrint_ceil.
  assert (DA : dbl a = a). { unfold dbl. destruct (Z.ltb_spec a (2 ^ 53)); [auto | lia]. }
  rewrite DA. destruct (Z.eq_dec a 0) as [-> | Na].
  - change (let '(m, s) := ddiv 0 (dbl b) in if 0 <=? s then ceil_div m (2 ^ s) else m * 2 ^ (- s)) with 0.
    symmetry. apply ceil_div_spec; lia.
  - assert (DB : 0 < dbl b /\ ceil_div a (dbl b) = ceil_div a b).
    { unfold dbl at 1 2. destruct (Z.ltb_spec b (2 ^ 53)); [split; [lia | auto] |].
      pose proof (dbl_big b H) as Q. unfold dbl in Q. destruct (Z.ltb_spec b (2 ^ 53)); [lia |].
      split; [lia |]. rewrite (ceil_div_spec a _ 1), (ceil_div_spec a b 1); lia. }
    destruct DB as (DB1 & DB2). pose proof (ddiv_ceil a (dbl b) ltac:(lia) DB1) as Q.
    destruct (ddiv a (dbl b)) as (m, s). destruct Q as (Q1 & Q2).
    destruct (Z.leb_spec 0 s); [| lia]. congruence.
Qed.

(** * No overflow *)
Lemma w64_some : forall z, - 2 ^ 63 <= z < 2 ^ 63 -> w64 z = Some z.
Proof.
  intros z (A & B). unfold w64. apply Z.leb_le in A. apply Z.ltb_lt in B. rewrite A, B. auto.
Qed.

Lemma h1 : forall x s, 1 <= s -> 1 <= x -> 0 <= (x - 1) * s.
Proof. intros. nia. Qed.
Lemma h2 : forall x n c s D, 1 <= s -> x <= n + c -> n * s < D + s -> (x - 1) * s <= D + s + c * s.
Proof. intros. assert ((x - 1) * s <= (n + c - 1) * s) by nia. nia. Qed.
Lemma h3 : forall a b, 0 <= a -> 1 <= b -> 0 <= a * b /\ a <= a * b.
Proof. intros. nia. Qed.
Lemma h4 : forall a b, 1 <= a -> 1 <= b -> 1 <= a * b.
Proof. intros. nia. Qed.
Lemma h5 : forall T c n, 1 <= c -> 1 <= n -> (T - 1) * c < n -> n <= T * c -> 1 <= T <= n.
Proof. intros. split; nia. Qed.
Lemma h6 : forall t T c n, 1 <= c -> t <= T -> T <= n -> (T - 1) * c < n -> t * c <= n + c /\ t <= n.
Proof. intros. split; [| lia]. assert (t * c <= T * c) by nia. nia. Qed.
Lemma h7 : forall T W q r, 1 <= W -> T = W * q + r -> 0 <= r -> 1 <= q -> q <= T /\ (1 < r -> q + 1 <= T).
Proof. intros. split; nia. Qed.
Lemma h8 : forall T k n, T <= n -> 0 <= T -> 0 <= k <= 2 ^ 8 -> 1 <= n < 2 ^ 53 -> - 2 ^ 62 <= T - k * (n + 1).
Proof.
  intros. assert (P8 : (2 ^ 53 + 1) * 2 ^ 8 < 2 ^ 62) by (vm_compute; reflexivity).
  assert (k * (n + 1) <= 2 ^ 8 * (n + 1)) by nia. nia.
Qed.
Lemma h9 : forall n k, 1 <= n -> 1 <= k -> n <= k * n.
Proof. intros. nia. Qed.
Lemma h10 : forall q n s D, 1 <= s -> q <= n -> n * s < D + s -> q * s <= D + s.
Proof. intros. nia. Qed.

Section Fits.
  Variables (first last step chunk : Z).
  Hypothesis HL : first < last.
  Hypothesis Hs : 1 <= step.
  Hypothesis Hc : 0 <= chunk.
  Hypothesis Hlo : - 2 ^ 63 <= first - step.
  Hypothesis Hr : last - first < 2 ^ 53.
  Hypothesis Hhi : Z.max last 0 + (last - first) + (2 * chunk + 4) * step < 2 ^ 63.

  Let N := ceil_div (last - first) step.
  Lemma N_bounds : 1 <= N /\ N * step < (last - first) + step /\ N <= last - first.
  Proof using HL Hs Hhi Hr Hlo Hc.
    destruct (ceil_div_bounds (last - first) step ltac:(lia)) as (A & B). fold N in A, B.
    split; [nia |]. split; nia.
  Qed.

  Lemma m_fill_eq : forall ntxw r, 1 <= chunk -> 1 <= ntxw ->
    (forall t, t = ntxw \/ (t = ntxw + 1 /\ 1 < r) -> t * chunk <= N + chunk /\ t <= N) ->
    forall k i start tot data, first <= start <= last - 1 + step -> - 2 ^ 62 <= tot - (Z.of_nat k) * (N + 1) -> tot <= N ->
    m_fill step chunk last ntxw r k i start tot data = Some (fill step chunk last ntxw r k i start tot data).
  Proof using HL Hs Hhi Hr Hlo Hc.
    intros ntxw r C1 X1 HT. destruct N_bounds as (N1 & N2 & N3).
    induction k as [| k IH]; intros i start tot data HS HK HU; cbn [m_fill fill]; auto.
    destruct (Z.ltb_spec 0 tot) as [P | P]; auto. cbv zeta.
    set (t := ntxw + (if (1 <? r) && (Z.of_nat i <? r) then 1 else 0)).
    assert (T : t * chunk <= N + chunk /\ t <= N /\ 1 <= t).
    { assert (t = ntxw \/ (t = ntxw + 1 /\ 1 < r)).
      { unfold t. destruct (Z.ltb_spec 1 r); simpl; [| left; lia]. destruct (Z.of_nat i <? r); [right | left]; lia. }
      pose proof (HT t H) as (Q1 & Q2). split; auto. split; auto. lia. }
    destruct T as (T1 & T2 & T3).
    pose proof (h4 t chunk T3 C1) as TC1. pose proof (h1 (t * chunk) step Hs TC1) as B1.
    pose proof (h2 (t * chunk) N chunk step (last - first) Hs T1 N2) as B2.
    assert (P53 : 2 ^ 53 < 2 ^ 62) by (apply Z.pow_lt_mono_r; lia).
    assert (P63 : 2 ^ 63 = 2 * 2 ^ 62) by (change 63 with (1 + 62); rewrite Z.pow_add_r by lia; lia).
    destruct (h3 chunk step Hc Hs) as (CS & CC).
    assert (E4 : (2 * chunk + 4) * step = 2 * (chunk * step) + 4 * step) by ring.
    assert (Hh : Z.max last 0 + (last - first) + (2 * (chunk * step) + 4 * step) < 2 ^ 63) by (rewrite <- E4; exact Hhi).
    clear E4. assert (Hx : t * chunk < 2 ^ 63) by lia.
    rewrite (w64_some (t * chunk)) by lia. cbn [bind].
    rewrite (w64_some ((t * chunk - 1) * step)) by lia. cbn [bind].
    set (b := (t * chunk - 1) * step) in *.
    rewrite (w64_some (start + b)) by lia. cbn [bind].
    rewrite (w64_some (start + b + 1)) by lia. cbn [bind].
    set (en := if start + b + 1 <? last then start + b + 1 else last).
    assert (EN : first + 1 <= en <= last) by (unfold en; destruct (Z.ltb_spec (start + b + 1) last); lia).
    rewrite (w64_some (en - 1)) by lia. cbn [bind].
    rewrite (w64_some (en - 1 + step)) by lia. cbn [bind].
    rewrite (w64_some (tot - t)) by lia. cbn [bind].
    rewrite IH; [reflexivity | lia | | lia]. rewrite Nat2Z.inj_succ in HK. clear - HK T2 N1 T3. nia.
  Qed.

  Lemma m_init_data_eq : forall nw data, 1 <= chunk -> (1 <= nw)%nat -> Z.of_nat nw <= 2 ^ 8 ->
    m_init_data first last step chunk nw data = Some (init_data first last step chunk nw data).
  Proof using HL Hs Hhi Hr Hlo Hc.
    intros nw data C1 W1 W2. destruct N_bounds as (N1 & N2 & N3). unfold m_init_data, init_data.
    assert (P53 : 2 ^ 53 < 2 ^ 62) by (apply Z.pow_lt_mono_r; lia).
    assert (P63 : 2 ^ 63 = 2 * 2 ^ 62) by (change 63 with (1 + 62); rewrite Z.pow_add_r by lia; lia).
    assert (P8 : (2 ^ 53 + 1) * 2 ^ 8 < 2 ^ 62) by (vm_compute; reflexivity).
    rewrite (w64_some (last - first)) by lia. cbn [bind].
    rewrite lrint_ceil_exact by lia. fold N. rewrite (w64_some N) by lia. cbn [bind].
    rewrite lrint_ceil_exact by lia. set (T := ceil_div N chunk).
    destruct (ceil_div_bounds N chunk ltac:(lia)) as (T1 & T2). fold T in T1, T2.
    pose proof (h5 T chunk N C1 N1 T1 T2) as TB.
    rewrite (w64_some T) by lia. cbn [bind]. cbv zeta.
    set (W := Z.of_nat nw) in *. assert (HW : 1 <= W) by lia.
    pose proof (Z.div_mod T W ltac:(lia)) as DM. pose proof (Z.mod_pos_bound T W ltac:(lia)) as MB.
    assert (DP : 0 <= T / W) by (apply Z.div_pos; lia).
    set (small := (T / W =? 0) && (1 <=? T mod W)).
    set (ntxw := if small then 1 else T / W). set (r := if small then 0 else T mod W).
    assert (Q : 1 <= ntxw /\ forall t, t = ntxw \/ (t = ntxw + 1 /\ 1 < r) -> t * chunk <= N + chunk /\ t <= N).
    { assert (TT : forall t, t <= T -> t * chunk <= N + chunk /\ t <= N) by (intros t Ht; apply (h6 t T); auto; lia).
      unfold ntxw, r, small. destruct (Z.eqb_spec (T / W) 0) as [Z0 | Z0]; simpl.
      - destruct (Z.leb_spec 1 (T mod W)); [| rewrite Z0, Z.mul_0_r in DM; lia]. split; [lia |]. intros t [-> | (_ & ?)]; [| lia]. apply TT; lia.
      - split; [lia |]. destruct (h7 T W (T / W) (T mod W) HW DM (proj1 MB) ltac:(lia)) as (HA & HB). intros t [-> | (-> & ?)]; apply TT; auto. }
    destruct Q as (Q1 & Q2).
    rewrite m_fill_eq; auto; try lia; [| apply h8; unfold W in *; lia].
    cbn [bind]. destruct (fill step chunk last ntxw r nw 0 first T (resize nw data)) as (d1, lft).
    destruct (lft =? 0); auto. destruct (negb (lft =? 1)); auto. destruct (1 <? ntxw); auto.
    assert (E4 : (2 * chunk + 4) * step = 2 * (chunk * step) + 4 * step) by ring.
    destruct (h3 chunk step Hc Hs) as (CS & CC). rewrite w64_some by lia. reflexivity.
  Qed.

  Lemma m_fill_static_eq : forall ch r, 0 <= ch -> ch * step <= last - first + step ->
    forall k i start data, first <= start <= last - 1 + step ->
    m_fill_static step ch last r k i start data = Some (fill_static step ch last r k i start data).
  Proof using HL Hs Hhi Hr Hlo Hc.
    intros ch r C0 CS. assert (P53 : 2 ^ 53 < 2 ^ 62) by (apply Z.pow_lt_mono_r; lia).
    assert (P63 : 2 ^ 63 = 2 * 2 ^ 62) by (change 63 with (1 + 62); rewrite Z.pow_add_r by lia; lia).
    destruct (h3 chunk step Hc Hs) as (CC & _).
    assert (E4 : (2 * chunk + 4) * step = 2 * (chunk * step) + 4 * step) by ring.
    assert (U : Z.max last 0 + (last - first) + 4 * step < 2 ^ 63) by lia.
    assert (SU : 0 <= ch * step) by nia.
    induction k as [| k IH]; intros i start data HS; cbn [m_fill_static fill_static]; auto. cbv zeta.
    assert (A : (ch - 1) * step = ch * step - step) by ring. rewrite A.
    rewrite (w64_some (ch * step - step)) by lia. cbn [bind].
    rewrite (w64_some (start + (ch * step - step))) by lia. cbn [bind].
    rewrite (w64_some (start + (ch * step - step) + 1)) by lia. cbn [bind].
    assert (ST : 0 <= (if Z.of_nat i <? r then step else 0) <= step) by (destruct (Z.of_nat i <? r); lia).
    set (d := if Z.of_nat i <? r then step else 0) in *.
    rewrite (w64_some (start + (ch * step - step) + 1 + d)) by lia. cbn [bind].
    set (en := if start + (ch * step - step) + 1 + d <? last then _ else last).
    assert (EN : first - step + 1 <= en <= last) by (unfold en; destruct (Z.ltb_spec (start + (ch * step - step) + 1 + d) last); lia).
    rewrite (w64_some (en - 1)) by lia. cbn [bind].
    rewrite (w64_some (en - 1 + step)) by lia. cbn [bind].
    apply IH. lia.
  Qed.

  Lemma m_init_static0_eq : forall nw data, (1 <= nw)%nat ->
    m_init_static0 first last step nw data = Some (init_data_static0 first last step nw data).
  Proof using HL Hs Hhi Hr Hlo Hc.
    intros nw data W1. destruct N_bounds as (N1 & N2 & N3). unfold m_init_static0, init_data_static0.
    assert (P53 : 2 ^ 53 < 2 ^ 62) by (apply Z.pow_lt_mono_r; lia).
    assert (P63 : 2 ^ 63 = 2 * 2 ^ 62) by (change 63 with (1 + 62); rewrite Z.pow_add_r by lia; lia).
    rewrite (w64_some (last - first)) by lia. cbn [bind].
    rewrite lrint_ceil_exact by lia. fold N. rewrite (w64_some N) by lia. cbn [bind]. cbv zeta.
    assert (Q : 0 <= Z.quot N (Z.of_nat nw) <= N).
    { rewrite Z.quot_div_nonneg by lia. split; [apply Z.div_pos; lia |].
      apply Z.div_le_upper_bound; [lia |]. apply h9; lia. }
    rewrite m_fill_static_eq; [reflexivity | lia | | lia]. apply (h10 _ N); lia.
  Qed.

  Lemma m_setloop_eq : forall nw data, (1 <= nw)%nat -> Z.of_nat nw <= 2 ^ 8 ->
    m_setloop first last step chunk nw data = Some (setloop first last step chunk nw data).
  Proof using HL Hs Hhi Hr Hlo Hc.
    intros nw data W1 W2. unfold m_setloop, setloop. destruct (Z.eqb_spec chunk 0).
    - rewrite m_init_static0_eq by auto. reflexivity.
    - destruct (Z.ltb_spec chunk 0); [lia |]. rewrite m_init_data_eq by (auto; lia). reflexivity.
  Qed.

  (** Cells. *)
  Definition inside (c : cell) : Prop := first <= lo c <= last - 1 + step /\ first <= hi c <= last.

  Definition chunk_fits (ch : Z) : Prop :=
    0 <= ch /\ (ch - 1) * step <= last - first + (2 * chunk + 1) * step.

  Lemma endchunk_ok : forall ch, chunk_fits ch -> m_endchunk step ch = Some ((ch - 1) * step + 1).
  Proof using HL Hs Hhi Hr Hlo Hc.
    intros ch (H0 & HC).
    assert (P53 : 2 ^ 53 < 2 ^ 62) by (apply Z.pow_lt_mono_r; lia).
    assert (P63 : 2 ^ 63 = 2 * 2 ^ 62) by (change 63 with (1 + 62); rewrite Z.pow_add_r by lia; lia).
    destruct (h3 chunk step Hc Hs) as (CC & _).
    assert (LW : - step <= (ch - 1) * step) by nia.
    assert (E : (2 * chunk + 1) * step = 2 * (chunk * step) + step) by ring. rewrite E in HC.
    assert (E4 : (2 * chunk + 4) * step = 2 * (chunk * step) + 4 * step) by ring. rewrite E4 in Hhi.
    unfold m_endchunk. set (q := (ch - 1) * step) in *.
    rewrite (w64_some q) by lia. cbn [bind]. rewrite (w64_some (q + 1)) by lia. reflexivity.
  Qed.

  Lemma take_ok : forall ch n a b, chunk_fits ch -> inside (mkCell n a b) ->
    m_take step ((ch - 1) * step + 1) a b =
      Some (chunk_end step ch (mkCell n a b), chunk_end step ch (mkCell n a b) - 1 + step) /\
    forall n', inside (mkCell n' (chunk_end step ch (mkCell n a b) - 1 + step) b).
  Proof using HL Hs Hhi Hr Hlo Hc.
    intros ch n a b (H0 & HC) ((L1 & L2) & (H1 & H2)). simpl in L1, L2, H1, H2.
    assert (P53 : 2 ^ 53 < 2 ^ 62) by (apply Z.pow_lt_mono_r; lia).
    assert (P63 : 2 ^ 63 = 2 * 2 ^ 62) by (change 63 with (1 + 62); rewrite Z.pow_add_r by lia; lia).
    destruct (h3 chunk step Hc Hs) as (CC & _).
    assert (LW : - step <= (ch - 1) * step) by nia.
    assert (E : (2 * chunk + 1) * step = 2 * (chunk * step) + step) by ring. rewrite E in HC.
    assert (E4 : (2 * chunk + 4) * step = 2 * (chunk * step) + 4 * step) by ring. rewrite E4 in Hhi.
    unfold m_take, chunk_end. cbn [lo hi]. set (q := (ch - 1) * step) in *.
    rewrite (w64_some (a + (q + 1))) by lia. cbn [bind].
    set (en := Z.min (a + (q + 1)) b).
    assert (EN : first - step + 1 <= en <= last) by (unfold en; lia).
    rewrite (w64_some (en - 1)) by lia. cbn [bind].
    rewrite (w64_some (en - 1 + step)) by lia. cbn [bind].
    split; [reflexivity |]. intros n'. split; simpl; lia.
  Qed.

  (** ** The table made by setloop *)
  Lemma fill_inside : forall ntxw r, 1 <= chunk -> 1 <= ntxw ->
    forall k i start tot data d' tot', first <= start <= last - 1 + step ->
    fill step chunk last ntxw r k i start tot data = (d', tot') ->
    (forall j, (j < i)%nat -> nth_error d' j = nth_error data j) /\
    (forall j c, nth_error d' j = Some c -> inside c \/ nth_error data j = Some c) /\
    (0 < tot' -> forall j c, (i <= j < i + k)%nat -> nth_error d' j = Some c -> inside c) /\
    tot' <= tot.
  Proof using HL Hs Hhi Hr Hlo Hc.
    intros ntxw r C1 X1. induction k as [| k IH]; intros i start tot data d' tot' HS E; cbn [fill] in E.
    - injection E as <- <-. split; [auto |]. split; [auto |]. split; [intros; lia | lia].
    - destruct (Z.ltb_spec 0 tot) as [P | P].
      2:{ injection E as <- <-. split; [auto |]. split; [auto |]. split; [intros; lia | lia]. }
      cbv zeta in E. set (t := ntxw + (if (1 <? r) && (Z.of_nat i <? r) then 1 else 0)) in E.
      assert (T : 1 <= t) by (unfold t; destruct ((1 <? r) && (Z.of_nat i <? r)); lia).
      pose proof (h1 (t * chunk) step Hs (h4 t chunk T C1)) as B1.
      set (b := (t * chunk - 1) * step) in *.
      set (en := if start + b + 1 <? last then start + b + 1 else last) in E.
      assert (EN : first + 1 <= en <= last) by (unfold en; destruct (Z.ltb_spec (start + b + 1) last); lia).
      apply IH in E; [| lia]. destruct E as (E1 & E2 & E3 & E4).
      assert (IN : inside (mkCell t start en)) by (split; simpl; lia).
      split; [| split; [| split]].
      + intros j Hj. rewrite E1 by lia. apply nth_error_lupd_neq. lia.
      + intros j c Ej. destruct (E2 j c Ej) as [Q | Q]; [auto |]. rewrite nth_error_lupd in Q.
        destruct (Nat.eqb_spec i j) as [<- |]; [| auto]. destruct (i <? length data)%nat; [| discriminate].
        injection Q as <-. auto.
      + intros TP j c Hj Ej. destruct (Nat.eq_dec j i) as [-> | Nj]; [| apply (E3 TP j c); [lia | auto]].
        rewrite E1 in Ej by lia. rewrite nth_error_lupd, Nat.eqb_refl in Ej.
        destruct (i <? length data)%nat; [| discriminate]. injection Ej as <-. auto.
      + lia.
  Qed.

  Lemma fill_static_inside : forall ch r, 0 <= ch -> forall k i start data,
    first <= start <= last - 1 + step -> (1 <= ch \/ Z.of_nat i < r \/ first + step <= start) ->
    (i + k <= length data)%nat ->
    forall j c, (i <= j < i + k)%nat ->
    nth_error (fill_static step ch last r k i start data) j = Some c -> inside c.
  Proof using HL Hs Hhi Hr Hlo Hc.
    intros ch r C0. induction k as [| k IH]; intros i start data HS HP HLn j c Hj E; [lia |].
    cbn [fill_static] in E. cbv zeta in E.
    set (d := if Z.of_nat i <? r then step else 0) in E.
    set (e := start + (ch - 1) * step + 1 + d) in E.
    assert (EE : first + 1 <= e).
    { assert (EH : 1 <= ch \/ ch = 0) by lia. destruct EH as [G | ->].
      - pose proof (h1 ch step Hs G). assert (0 <= d) by (unfold d; destruct (Z.of_nat i <? r); lia). unfold e. lia.
      - unfold e, d. destruct (Z.ltb_spec (Z.of_nat i) r); lia. }
    set (en := if e <? last then e else last) in E.
    assert (EN : first + 1 <= en <= last) by (unfold en; destruct (Z.ltb_spec e last); lia).
    destruct (Nat.eq_dec j i) as [-> | Nj].
    - rewrite fill_static_before in E by lia. rewrite nth_error_lupd_eq in E by lia.
      injection E as <-. split; simpl; lia.
    - eapply (IH (S i) (en - 1 + step) (lupd data i (mkCell 1 start en))); [lia | right; right; lia | rewrite lupd_length; lia | | exact E]. lia.
  Qed.

  (** Every cell with tasks lies within the range, the cells of the workers used are not
      over-drawn. *)
  Definition tab_ok (n : nat) (d : list cell) : Prop :=
    forall i c, nth_error d i = Some c -> (0 < nt c -> inside c) /\ ((i < n)%nat -> 0 <= nt c).

  Lemma setup_ok : forall nw data u, (1 <= nw)%nat -> quiet data ->
    setloop first last step chunk nw data = Done u ->
    tab_ok (s_nw u) (s_data u) /\ chunk_fits (s_chunk u) /\ (s_nw u <= length (s_data u))%nat /\
    1 <= s_total u <= Z.max (last - first) (Z.of_nat nw).
  Proof using HL Hs Hhi Hr Hlo Hc.
    intros nw data u W1 Q E. destruct N_bounds as (N1 & N2 & N3).
    assert (P53 : 2 ^ 53 < 2 ^ 64) by (apply Z.pow_lt_mono_r; lia).
    destruct (Z.eq_dec chunk 0) as [C0 | C0].
    - destruct (init_static_ok first last step nw data Hs W1 ltac:(lia)) as (u0 & E0 & _ & SN & SL & ST & ON & _).
      rewrite C0 in E. rewrite E0 in E. injection E as <-.
      assert (QN : 0 <= Z.quot N (Z.of_nat nw) <= N).
      { rewrite Z.quot_div_nonneg by lia. split; [apply Z.div_pos; lia |].
        apply Z.div_le_upper_bound; [lia |]. apply h9; lia. }
      pose proof (h10 (Z.quot N (Z.of_nat nw)) N step (last - first) Hs (proj2 QN) N2) as QS.
      unfold setloop in E0. simpl (0 =? 0) in E0. cbv iota in E0.
      unfold init_data_static0, finish_setloop in E0. fold N in E0.
      destruct (Z.ltb_spec (Z.of_nat nw) 1); [lia |]. injection E0 as E0. subst u0. cbn [s_data s_chunk s_nw s_total] in *.
      split; [| split; [| split; [lia |]]].
      + intros i c Ei. pose proof (ON c (nth_error_In _ _ Ei)) as O1. split; [intros _ | lia].
        eapply (fill_static_inside (Z.quot N (Z.of_nat nw)) (N mod 2 ^ 64 mod Z.of_nat nw) (proj1 QN) nw 0 first (resize nw data)); [lia | | rewrite resize_length; lia | | exact Ei].
        * assert (EH : 1 <= Z.quot N (Z.of_nat nw) \/ Z.quot N (Z.of_nat nw) = 0) by lia. destruct EH as [G | G]; [auto |].
          right. left. rewrite Z.quot_div_nonneg in G by lia.
          rewrite (Z.mod_small N (2 ^ 64)) by lia. pose proof (Z.div_mod N (Z.of_nat nw) ltac:(lia)) as DM.
          rewrite G, Z.mul_0_r in DM. simpl. lia.
        * apply nth_error_lt in Ei. rewrite SL in Ei. lia.
      + unfold chunk_fits. match goal with |- 0 <= (if ?b then _ else _) /\ _ => destruct b end; split; try lia.
        all: destruct (h3 chunk step Hc Hs) as (CC & _).
        all: assert (EX : (2 * chunk + 1) * step = 2 * (chunk * step) + step) by ring; rewrite EX.
        all: match goal with |- (?x - 1) * step <= _ => replace ((x - 1) * step) with (x * step - step) by ring end.
        all: try replace ((Z.quot N (Z.of_nat nw) + 1) * step) with (Z.quot N (Z.of_nat nw) * step + step) by ring; lia.
      + lia.
    - assert (C1 : 1 <= chunk) by lia.
      destruct (init_data_ok first last step chunk nw data HL Hs C1 W1) as (u0 & E0 & _ & SN & SL & _ & TK).
      rewrite E0 in E. injection E as <-.
      pose proof (stale_of_table _ _ _ _ _ _ _ _ TK Q) as STL.
      pose proof (chunk_le_double first last step chunk nw data u0 HL Hs C1 W1 E0) as CD.
      assert (CF : chunk_fits (s_chunk u0)).
      { destruct (h3 chunk step Hc Hs) as (CC & _).
        assert (EX : (2 * chunk + 1) * step = 2 * (chunk * step) + step) by ring. unfold chunk_fits. rewrite EX.
        destruct CD as [-> | ->]; (split; [lia |]).
        - replace ((chunk - 1) * step) with (chunk * step - step) by ring. lia.
        - replace ((2 * chunk - 1) * step) with (2 * (chunk * step) - step) by ring. lia. }
      split; [| split; [exact CF | split; [lia |]]].
      + assert (IN : forall i c, nth_error (s_data u0) i = Some c -> inside c \/ (1 <= i)%nat /\ nt c <= 0).
        { clear CF CD STL TK SL SN C0. unfold setloop in E0. destruct (Z.eqb_spec chunk 0); [lia |].
          destruct (Z.ltb_spec chunk 0); [lia |].
          destruct (init_data first last step chunk nw data) as [x | |] eqn:EI; try discriminate.
          assert (SX : s_data u0 = fst (fst x)).
          { unfold finish_setloop in E0. destruct x as ((d, ch), tt). destruct (tt <? 1); [discriminate |].
            injection E0 as <-. reflexivity. }
          rewrite SX. clear SX E0. unfold init_data in EI. cbv zeta in EI. fold N in EI.
          destruct (ceil_div_bounds N chunk ltac:(lia)) as (T1 & T2).
          set (T := ceil_div N chunk) in *.
          pose proof (h5 T chunk N C1 N1 T1 T2) as TB.
          set (small := (T / Z.of_nat nw =? 0) && (1 <=? T mod Z.of_nat nw)) in EI.
          assert (XX : 1 <= (if small then 1 else T / Z.of_nat nw)).
          { unfold small. pose proof (Z.div_mod T (Z.of_nat nw) ltac:(lia)) as DM.
            assert (DP : 0 <= T / Z.of_nat nw) by (apply Z.div_pos; lia).
            destruct (Z.eqb_spec (T / Z.of_nat nw) 0) as [Z0 | Z0]; simpl; [| lia].
            rewrite Z0, Z.mul_0_r in DM. destruct (Z.leb_spec 1 (T mod Z.of_nat nw)); lia. }
          set (ntxw := if small then 1 else T / Z.of_nat nw) in *.
          set (r := if small then 0 else T mod Z.of_nat nw) in EI.
          destruct (fill step chunk last ntxw r nw 0 first T (resize nw data)) as (d1, lft) eqn:EF.
          assert (LD : length d1 = nw).
          { assert (FL : forall k i st tt dd, length (fst (fill step chunk last ntxw r k i st tt dd)) = length dd).
            { induction k as [| k IH]; intros; cbn [fill]; auto. destruct (0 <? tt); auto. cbv zeta. rewrite IH. apply lupd_length. }
            pose proof (FL nw 0%nat first T (resize nw data)) as Y. rewrite EF, resize_length in Y. exact Y. }
          assert (I1 : forall i c, nth_error d1 i = Some c -> inside c \/ (1 <= i)%nat /\ nt c <= 0).
          { intros i c Ei. destruct i as [| i].
            - left. destruct nw as [| k]; [lia |]. cbn [fill] in EF. destruct (Z.ltb_spec 0 T); [| lia]. cbv zeta in EF.
              set (t := ntxw + (if (1 <? r) && (Z.of_nat 0 <? r) then 1 else 0)) in EF.
              assert (TP : 1 <= t) by (unfold t; destruct ((1 <? r) && (Z.of_nat 0 <? r)); lia).
              pose proof (h1 (t * chunk) step Hs (h4 t chunk TP C1)) as B1.
              set (b := (t * chunk - 1) * step) in *.
              set (en := if first + b + 1 <? last then first + b + 1 else last) in EF.
              assert (EN : first + 1 <= en <= last) by (unfold en; destruct (Z.ltb_spec (first + b + 1) last); lia).
              apply (fill_inside ntxw r C1 XX) in EF; [| lia]. destruct EF as (F1 & _).
              rewrite F1 in Ei by lia. rewrite nth_error_lupd_eq in Ei by (rewrite resize_length; lia).
              injection Ei as <-. split; simpl; lia.
            - apply (fill_inside ntxw r C1 XX) in EF; [| lia]. destruct EF as (_ & F2 & _).
              destruct (F2 _ _ Ei) as [G | G]; [auto |]. right. split; [lia |].
              apply nth_error_resize in G as [-> | G]; [simpl; lia |]. apply (Q (S i) c); auto. lia. }
          destruct (Z.eqb_spec lft 0); [injection EI as <-; exact I1 |].
          destruct (Z.eqb_spec lft 1) as [L1 |]; simpl in EI; [| discriminate].
          apply (fill_inside ntxw r C1 XX) in EF; [| lia]. destruct EF as (_ & _ & F3 & _).
          assert (LC : inside (nth (nw - 1) d1 cell0)).
          { apply (F3 ltac:(lia) (nw - 1)%nat); [lia |]. apply nth_error_nth'. lia. }
          assert (I2 : forall x i c, nth_error (lupd d1 (nw - 1) (mkCell x (lo (nth (nw - 1) d1 cell0)) last)) i = Some c ->
                       inside c \/ (1 <= i)%nat /\ nt c <= 0).
          { intros y i c Ei. rewrite nth_error_lupd in Ei. destruct (Nat.eqb_spec (nw - 1) i) as [<- |]; [| eauto].
            destruct ((nw - 1) <? length d1)%nat; [| discriminate]. injection Ei as <-. left.
            destruct LC as (LC1 & LC2). split; cbn [lo hi]; lia. }
          match type of EI with (if ?b then _ else _) = _ => destruct b end; injection EI as <-; cbn [fst]; apply I2. }
        intros i c Ei. destruct (IN i c Ei) as [G | (G1 & G2)].
        * split; [auto |]. intros Hi. pose proof (tk_cells _ _ _ _ _ _ _ _ TK i c Hi Ei) as (K & _). lia.
        * split; [lia |]. intros Hi. pose proof (tk_cells _ _ _ _ _ _ _ _ TK i c Hi Ei) as (K & _). lia.
      + (* total *)
        clear - E0 C1 HL Hs W1 N1 N3. unfold setloop in E0. destruct (Z.eqb_spec chunk 0); [lia |].
        destruct (Z.ltb_spec chunk 0); [lia |].
        destruct (init_data first last step chunk nw data) as [x | |] eqn:EI; try discriminate.
        assert (SX : s_total u0 = snd x /\ 1 <= snd x).
        { unfold finish_setloop in E0. destruct x as ((d, ch), tt). destruct (Z.ltb_spec tt 1); [discriminate |].
          injection E0 as <-. simpl. split; [reflexivity | lia]. }
        destruct SX as (SX1 & SX2). rewrite SX1. split; [auto |].
        unfold init_data in EI. cbv zeta in EI. fold N in EI.
        destruct (ceil_div_bounds N chunk ltac:(lia)) as (T1 & T2). set (T := ceil_div N chunk) in *.
        pose proof (h5 T chunk N C1 N1 T1 T2) as TB.
        destruct (fill _ _ _ _ _ _ _ _ _ _) as (d1, lft) in EI.
        destruct (lft =? 0); [injection EI as <-; simpl; lia |].
        destruct (negb (lft =? 1)); [discriminate |].
        match type of EI with (if ?b then _ else _) = _ => destruct b end; injection EI as <-; simpl; lia.
  Qed.
End Fits.
