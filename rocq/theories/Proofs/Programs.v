(** * Programs: stepping through user programs (C84). *)
From Coq Require Import Lia Sorting.Sorted FMapPositive Factorial Znumtheory.
From Verif.Model Require Import Base Syntax World Prog Lex Parse Meta Eval Builtins CoreSrc Main.
From Verif.Proofs Require Import Run Heap Rules Forms Natives Core Wp Step Macro Symb Macros Guard While Lib.
From Verif.Spec Require Import Vocabulary Library Reader Programs.
Open Scope prog_scope.
Open Scope list_scope.

(** The functions a text of definitions defines. *)
Fixpoint symbols (l : val) : list string :=
  match l with VCons (VAtom s) r => s :: symbols r | _ => [] end.
Definition fun_of (x : val) : list (string * val) :=
  match x with
  | VCons (VAtom "defn") (VCons (VAtom f) (VCons l body)) => [(f, VLam (symbols l) "" body VNil false global_env)]
  | _ => []
  end.
Definition defs_of (text : string) : frame :=
  match read text with POk xs => flat_map fun_of xs | _ => [] end.
Definition fact_defs : frame := Eval vm_compute in defs_of (text_of fact_lines).
Definition sum_defs : frame := Eval vm_compute in defs_of (text_of sum_lines).
Definition prime_defs : frame := Eval vm_compute in defs_of (text_of prime_lines).

(** The library is as loaded, and the functions are defined. *)
Definition with_defs (D : frame) (w : world) : Prop := core w /\ sc w [1%positive] (push D coreT).
Definition fn (D : frame) (f : string) : val := match fget f D with Some v => v | None => VNil end.
Definition upure (D : frame) (k : nat) (f : string) (args : list val) (v : val) : Prop :=
  forall M d e w (Q : val -> world -> Prop), room k d -> core w -> sc w [1%positive] (push D coreT) ->
    (forall w', grows w w' -> Q v w') -> wpf M d (fn D f) args e w Q.
Ltac uenter i w1 :=
  eapply wpf_enter; [reflexivity|reflexivity|reflexivity|bs_tac|fr_tac|room_tac|eassumption|];
  let G := fresh "G" in let L1 := fresh "Li" in let F := fresh "F" in let S := fresh "SC" in
  intros i w1 G L1 F S; stay G; cbn [wpb].
Ltac ucall P := eapply P; [room_tac|eassumption|eassumption|adv].

Lemma fact_pure n : upure fact_defs (40 + 3 * n) "fact" [VNum (Z.of_nat n)] (VNum (Z.of_nat (fact n))).
Proof.
  induction n as [|n IH]; intros M d e w Q R C S K; uenter i w1.
  - ev. pcall (zero_num 0). ev. apply K. assumption.
  - ev. pcall (zero_num (Z.of_nat (Datatypes.S n))). destruct (Z.eqb_spec (Z.of_nat (Datatypes.S n)) 0); [lia|]. ev.
    replace (Z.of_nat (Datatypes.S n) - 1)%Z with (Z.of_nat n) by lia.
    ucall IH. ev.
    replace (Z.of_nat (Datatypes.S n) * Z.of_nat (fact n))%Z with (Z.of_nat (fact (Datatypes.S n)))
      by (cbn [fact]; rewrite <- Nat2Z.inj_mul; f_equal; lia).
    apply K. assumption.
Qed.

(** The sum of the numbers up to n. *)
Definition triangle (n : nat) : Z := (Z.of_nat n * (Z.of_nat n + 1) / 2)%Z.
Lemma triangle_S n : triangle (S n) = (triangle n + Z.of_nat (S n))%Z.
Proof.
  unfold triangle. replace (Z.of_nat (S n) * (Z.of_nat (S n) + 1))%Z
    with (Z.of_nat n * (Z.of_nat n + 1) + Z.of_nat (S n) * 2)%Z by lia.
  apply Z.div_add. lia.
Qed.
Lemma sum_acc_pure n : forall acc, upure sum_defs 50 "sum-to-acc" [VNum (Z.of_nat n); VNum acc] (VNum (acc + triangle n)).
Proof.
  induction n as [|n IH]; intros acc M d e w Q R C S K; uenter i w1.
  - ev. pcall (zero_num 0). ev. change (triangle 0) with 0%Z in K. rewrite Z.add_0_r in K. apply K. assumption.
  - ev. pcall (zero_num (Z.of_nat (Datatypes.S n))). destruct (Z.eqb_spec (Z.of_nat (Datatypes.S n)) 0); [lia|]. ev.
    replace (Z.of_nat (Datatypes.S n) - 1)%Z with (Z.of_nat n) by lia.
    rewrite triangle_S in K.
    ucall (IH (Z.of_nat (Datatypes.S n) + acc)%Z).
    replace (Z.of_nat (Datatypes.S n) + acc + triangle n)%Z with (acc + (triangle n + Z.of_nat (Datatypes.S n)))%Z by lia.
    apply K. assumption.
Qed.
Lemma sum_pure n : upure sum_defs 60 "sum-to" [VNum (Z.of_nat n)] (VNum (triangle n)).
Proof.
  intros M d e w Q R C S K; uenter i w1. ev. ucall (sum_acc_pure n 0). apply K. assumption.
Qed.

(** (let ((s x)) body) where x is a number. *)
Lemma wp_let_num M d T s x body xs e w (Q : val -> world -> Prop) :
  sc w e T -> plain_name (T "let") = true -> String.eqb s "t" = false -> room 2 d -> cons_to_exprs body = Some xs ->
  (forall i w1, grows w w1 -> sc w1 (i :: e) (push [(s, VNum x)] T) -> wpb M d xs (i :: e) w1 Q) ->
  wp M d (VCons (VAtom "let") (VCons (VCons (VCons (VAtom s) (VCons (VNum x) VNil)) VNil) body)) e w Q.
Proof.
  intros SC P T' R B H. eapply wp_let; [exact SC|exact P|reflexivity|eapply room_le; [|exact R]; lia|exact B|].
  cbn [wpl]. split; [exact T'|]. ev.
  pose proof (has_frame_new [] w) as Fj. pose proof (grows_with_frame [] w) as G1.
  pose proof (grows_set_fresh w _ (w_next w) (fset s (VNum x) (frame_at (with_frame [] w) (w_next w))) G1 (Pos.le_refl _) (proj1 Fj)) as G3.
  apply has_frame_set with (s := s) (v := VNum x) in Fj. apply H; [exact G3|].
  apply (sc_cons _ _ [(s, VNum x)]); [exact Fj|]. eapply sc_grows; [exact SC|exact G3].
Qed.
Lemma sum_let_acc_pure n : forall acc, upure sum_defs 50 "sum-to-acc-with-let" [VNum (Z.of_nat n); VNum acc] (VNum (acc + triangle n)).
Proof.
  induction n as [|n IH]; intros acc M d e w Q R C S K; uenter i w1;
    (eapply wp_let_num; [eassumption|reflexivity|reflexivity|room_tac|reflexivity|]); intros j w2 G2 SC2; stay G2; cbn [wpb].
  - ev. pcall (zero_num 0). ev. change (triangle 0) with 0%Z in K. rewrite Z.add_0_r in K. apply K. assumption.
  - ev. pcall (zero_num (Z.of_nat (Datatypes.S n))). destruct (Z.eqb_spec (Z.of_nat (Datatypes.S n)) 0); [lia|]. ev.
    replace (Z.of_nat (Datatypes.S n) - 1)%Z with (Z.of_nat n) by lia.
    rewrite triangle_S in K.
    ucall (IH (Z.of_nat (Datatypes.S n) + acc)%Z).
    replace (Z.of_nat (Datatypes.S n) + acc + triangle n)%Z with (acc + (triangle n + Z.of_nat (Datatypes.S n)))%Z by lia.
    apply K. assumption.
Qed.
Lemma sum_let_pure n : upure sum_defs 60 "sum-to-with-let" [VNum (Z.of_nat n)] (VNum (triangle n)).
Proof.
  intros M d e w Q R C S K; uenter i w1. ev. ucall (sum_let_acc_pure n 0). apply K. assumption.
Qed.
Lemma divides_pure d x : (0 < d)%Z -> (0 < x)%Z ->
  upure prime_defs 40 "divides?" [VNum d; VNum x] (truth (x mod d =? 0)%Z).
Proof.
  intros D0 X0 M dd e w Q R C S K; uenter i w1. ev.
  eapply wpf_nat with (v := VNum (x mod d)); [|room_tac|].
  { constructor. intro. cbn [builtin_prog]. destruct (Z.eqb_spec d 0); [lia|]. now rewrite Z.rem_mod_nonneg by lia. }
  pcall (zero_num (x mod d)). apply K. assumption.
Qed.
Lemma square_pure n : upure prime_defs 20 "square" [VNum n] (VNum (n * n)).
Proof. intros M d e w Q R C S K; uenter i w1. ev. apply K. assumption. Qed.

(** r is the least divisor of n above 1. *)
Definition least_divisor (n r : Z) : Prop :=
  (1 < r)%Z /\ (r | n)%Z /\ forall k, (1 < k < r)%Z -> ~ (k | n)%Z.
Lemma nat_gt a b : nat_ BGt [VNum a; VNum b] (truth (b <? a)%Z).
Proof. constructor. intro. cbn. rewrite Z.gtb_ltb. destruct (b <? a)%Z; reflexivity. Qed.
Lemma no_small_divisor n t : (1 < n)%Z -> (1 < t)%Z -> (n < t * t)%Z ->
  (forall k, (1 < k < t)%Z -> ~ (k | n)%Z) -> least_divisor n n.
Proof.
  intros N T L No. split; [exact N|]. split; [apply Z.divide_refl|]. intros k Hk Dk.
  destruct (Z.lt_ge_cases k t) as [Hlt|Hge]; [apply (No k); auto; lia|].
  destruct Dk as [q Eq]. apply (No q); [nia|]. exists k. lia.
Qed.
Lemma find_divisor_pure m : forall n t, (1 < n)%Z -> (1 < t <= n)%Z -> (Z.to_nat (n - t) <= m)%nat ->
  (forall k, (1 < k < t)%Z -> ~ (k | n)%Z) ->
  exists r, least_divisor n r /\ upure prime_defs 60 "find-divisor" [VNum n; VNum t] (VNum r).
Proof.
  induction m as [|m IH]; intros n t N T Lm No.
  all: destruct (Z.ltb_spec n (t * t)) as [Hlt|Hge].
  1,3: exists n; split; [now apply (no_small_divisor n t)|];
    intros M dd e w Q R C S K; uenter i w1; ev; ucall (square_pure t); ev;
    (eapply wpf_nat; [apply nat_gt|room_tac|]); (replace (n <? t * t)%Z with true by (symmetry; apply Z.ltb_lt; lia)); ev;
    apply K; assumption.
  { exfalso. assert (t = n) by lia. subst. nia. }
  destruct (Z.eqb_spec (n mod t) 0) as [Dv|Nd].
  - exists t. split.
    { split; [lia|]. split; [apply Z.mod_divide; [lia|exact Dv]|exact No]. }
    intros M dd e w Q R C S K; uenter i w1; ev; ucall (square_pure t); ev.
    eapply wpf_nat; [apply nat_gt|room_tac|]. replace (n <? t * t)%Z with false by (symmetry; apply Z.ltb_ge; lia). ev.
    ucall (divides_pure t n ltac:(lia) ltac:(lia)). rewrite Dv. ev. apply K. assumption.
  - destruct (IH n (t + 1)%Z) as (r & Lr & U); [lia|nia|nia| |].
    { intros k Hk Dk. destruct (Z.eq_dec k t) as [->|Ne]; [|apply (No k); auto; lia].
      apply Nd, Z.mod_divide; [lia|exact Dk]. }
    exists r. split; [exact Lr|].
    intros M dd e w Q R C S K; uenter i w1; ev; ucall (square_pure t); ev.
    eapply wpf_nat; [apply nat_gt|room_tac|]. replace (n <? t * t)%Z with false by (symmetry; apply Z.ltb_ge; lia). ev.
    ucall (divides_pure t n ltac:(lia) ltac:(lia)). apply Z.eqb_neq in Nd. rewrite Nd. ev.
    ucall U. apply K. assumption.
Qed.
Lemma least_divisor_prime n r : (1 < n)%Z -> least_divisor n r -> (n = r <-> prime n).
Proof.
  intros N (R & D & Mi). split.
  - intros <-. apply prime_intro; [exact N|]. intros k Hk.
    apply Zgcd_1_rel_prime. destruct (Z.eq_dec (Z.gcd k n) 1) as [E|E]; [exact E|exfalso].
    pose proof (Z.gcd_nonneg k n). assert (Z.gcd k n <> 0)%Z by (intro X; apply Z.gcd_eq_0_l in X; lia).
    pose proof (Z.gcd_divide_l k n) as Dl. pose proof (Z.divide_pos_le (Z.gcd k n) k ltac:(lia) Dl).
    apply (Mi (Z.gcd k n)); [lia|apply Z.gcd_divide_r].
  - intro P. apply prime_divisors with (a := r) in P; [|exact D]. lia.
Qed.
Lemma prime_pure n : (1 < n)%Z -> exists b : bool, (b = true <-> prime n) /\
  upure prime_defs 80 "prime?" [VNum n] (truth b).
Proof.
  intro N. destruct (find_divisor_pure (Z.to_nat (n - 2)) n 2) as (r & Lr & U); [lia|lia|lia|intros; lia|].
  exists (n =? r)%Z. split; [rewrite Z.eqb_eq; now apply least_divisor_prime|].
  intros M dd e w Q R C S K; uenter i w1. ev.
  assert (U' : upure prime_defs 70 "smallest-divisor" [VNum n] (VNum r)).
  { clear - U. intros M dd e w Q R C S K; uenter i w1. ev. ucall U. apply K. assumption. }
  ucall U'. ev. apply K. assumption.
Qed.
Lemma small_prime_pure n : (n <= 1)%Z -> upure prime_defs 80 "prime?" [VNum n] (VAtom "t").
Proof.
  intro N.
  assert (U : upure prime_defs 60 "find-divisor" [VNum n; VNum 2] (VNum n)).
  { intros M dd e w Q R C S K; uenter i w1; ev; ucall (square_pure 2); ev;
    (eapply wpf_nat; [apply nat_gt|room_tac|]); (replace (n <? 2 * 2)%Z with true by (symmetry; apply Z.ltb_lt; lia)); ev;
    apply K; assumption. }
  intros M dd e w Q R C S K; uenter i w1. ev.
  assert (U' : upure prime_defs 70 "smallest-divisor" [VNum n] (VNum n)).
  { clear - U. intros M dd e w Q R C S K; uenter i w1. ev. ucall U. apply K. assumption. }
  ucall U'. ev. cbn [val_equal]. rewrite Z.eqb_refl. apply K. assumption.
Qed.

(** ** n-primes. *)
(** There is a prime above every number. *)
Lemma least_exists n : (1 < n)%Z -> exists r, least_divisor n r.
Proof. intro N. destruct (find_divisor_pure (Z.to_nat (n - 2)) n 2) as (r & Lr & _); [lia|lia|lia|intros; lia|]. eauto. Qed.
Lemma least_is_prime n r : (1 < n)%Z -> least_divisor n r -> prime r.
Proof.
  intros N (R & D & Mi). apply (least_divisor_prime r r R); [|reflexivity]. split; [exact R|]. split; [apply Z.divide_refl|].
  intros k Hk Dk. apply (Mi k Hk). now apply (Z.divide_trans _ r).
Qed.
Lemma fact_divides n k : (1 <= k <= n)%nat -> (Z.of_nat k | Z.of_nat (fact n))%Z.
Proof.
  induction n as [|n IH]; intros L; [lia|].
  change (fact (S n)) with (S n * fact n)%nat. rewrite Nat2Z.inj_mul.
  destruct (Nat.eq_dec k (S n)) as [->|Ne].
  - exists (Z.of_nat (fact n)). apply Z.mul_comm.
  - apply Z.divide_mul_r, IH. lia.
Qed.
Lemma prime_above n : exists p, (n <= p)%Z /\ prime p.
Proof.
  destruct (Z.lt_ge_cases n 2) as [L|G]; [exists 2%Z; split; [lia|apply prime_2]|].
  set (m := Z.to_nat n). pose proof (lt_O_fact m) as F0.
  destruct (least_exists (Z.of_nat (fact m) + 1)) as [p Lp]; [lia|].
  assert (P : prime p) by (eapply least_is_prime; [|exact Lp]; lia). exists p. split; [|exact P].
  destruct (Z.lt_ge_cases p n) as [Lt|]; [exfalso|assumption]. destruct Lp as (P1 & D & _).
  assert (Dp : (p | Z.of_nat (fact m))%Z). { rewrite <- (Z2Nat.id p) by lia. apply fact_divides. unfold m. lia. }
  assert (D1 : (p | 1)%Z). { replace 1%Z with ((Z.of_nat (fact m) + 1) - Z.of_nat (fact m))%Z by lia. now apply Z.divide_sub_r. }
  apply Z.divide_1_r_nonneg in D1; lia.
Qed.
Definition taken (n : Z) : Prop := n = 1%Z \/ prime n.
(** The first c numbers from n on that are taken. *)
Inductive from : nat -> Z -> list Z -> Prop :=
| from_none n : from 0 n []
| from_take c n ps : taken n -> from c (n + 1) ps -> from (S c) n (n :: ps)
| from_skip c n ps : ~ taken n -> from (S c) (n + 1) ps -> from (S c) n ps.
Lemma from_spec c n ps : from c n ps -> length ps = c /\ StronglySorted Z.lt ps /\ Forall (fun p => n <= p)%Z ps /\
  (forall p, In p ps -> taken p) /\ (forall p q, In p ps -> (n <= q < p)%Z -> taken q -> In q ps).
Proof.
  induction 1 as [n|c n ps T F (L & S & A & T1 & T2)|c n ps T F (L & S & A & T1 & T2)].
  - split; [reflexivity|]. split; [constructor|]. split; [constructor|]. split; [intros p []|intros p q []].
  - split; [cbn; congruence|]. split.
    { constructor; [exact S|]. eapply Forall_impl; [|exact A]. cbn. lia. }
    split; [constructor; [lia|]; eapply Forall_impl; [|exact A]; cbn; lia|]. split.
    + intros p [<-|I]; auto.
    + intros p q [<-|I] Lq Tq; [lia|]. destruct (Z.eq_dec q n) as [->|]; [now left|right]. apply (T2 p q); auto. lia.
  - split; [exact L|]. split; [exact S|]. split; [eapply Forall_impl; [|exact A]; cbn; lia|]. split; [exact T1|].
    intros p q I Lq Tq. apply (T2 p q); auto. destruct (Z.eq_dec q n) as [->|]; [contradiction|lia].
Qed.
Lemma from_first c ps : from c 1 ps -> first_primes c ps.
Proof. intros F. apply from_spec in F. destruct F as (L & S & _ & T1 & T2). split; [exact L|]. split; [exact S|]. split; [exact T1|exact T2]. Qed.

Lemma spec_from ps : forall n, StronglySorted Z.lt ps -> Forall (fun p => n <= p)%Z ps ->
  (forall p, In p ps -> taken p) -> (forall p q, In p ps -> (n <= q < p)%Z -> taken q -> In q ps) -> from (length ps) n ps.
Proof.
  induction ps as [|p ps IH]; intros n S A T1 T2; [constructor|].
  inversion S as [|? ? S' A']; inversion A as [|? ? Lp _]; subst.
  assert (G : forall k n, (n <= p)%Z -> (p - n <= Z.of_nat k)%Z -> (forall q, (n <= q < p)%Z -> ~ taken q) -> from (length (p :: ps)) n (p :: ps)).
  { assert (Last : from (length (p :: ps)) p (p :: ps)).
    { constructor; [apply T1; now left|]. apply IH; [exact S'| | |].
      - eapply Forall_impl; [|exact A']. cbn. lia.
      - intros q I. apply T1. now right.
      - intros q r I L T. destruct (T2 q r) as [<-|]; [now right|lia|exact T|lia|assumption]. }
    induction k as [|k IHk]; intros m Lm Lk No.
    - assert (m = p) by lia. now subst.
    - destruct (Z.eq_dec m p) as [->|Ne]; [exact Last|].
      apply from_skip; [apply No; lia|]. apply IHk; [lia|lia|]. intros q L. apply No. lia. }
  apply (G (Z.to_nat (p - n))); [exact Lp|lia|]. intros q L T.
  destruct (T2 p q) as [<-|I]; [now left|exact L|exact T|lia|].
  rewrite Forall_forall in A'. specialize (A' q I). lia.
Qed.
Lemma from_det c n ps : from c n ps -> forall qs, from c n qs -> ps = qs.
Proof.
  induction 1 as [n|c n ps T F IH|c n ps T F IH]; intros qs H; inversion H; subst; try contradiction; auto. f_equal. auto.
Qed.
Lemma first_from c ps : first_primes c ps -> from c 1 ps.
Proof.
  intros (L & S & T1 & T2). rewrite <- L. apply spec_from; [exact S| |exact T1|exact T2].
  rewrite Forall_forall. intros p I. destruct (T1 p I) as [->|P]; [lia|]. destruct P. lia.
Qed.

Definition upv (D : frame) (f : string) (args : list val) (v : val) : Prop :=
  forall M e w (Q : val -> world -> Prop), core w -> sc w [1%positive] (push D coreT) ->
    (forall w', grows w w' -> Q v w') -> wpf M Inf (fn D f) args e w Q.
Lemma upure_upv D k f args v : upure D k f args v -> upv D f args v.
Proof. intros U M e w Q C S K. apply U; auto. exact I. Qed.
Ltac upcall P := eapply P; [eassumption|eassumption|adv].
Lemma taken_pure n : (1 <= n)%Z -> exists b : bool, (b = true <-> taken n) /\ upv prime_defs "prime?" [VNum n] (truth b).
Proof.
  intro N. destruct (Z.eq_dec n 1) as [->|Ne].
  - exists true. split; [split; [now left|reflexivity]|]. eapply upure_upv, small_prime_pure. lia.
  - destruct (prime_pure n) as (b & B & U); [lia|]. exists b. split; [|eapply upure_upv; exact U].
    rewrite B. unfold taken. split; [now right|]. intros [X|X]; [lia|exact X].
Qed.
Lemma helper_pv c : forall n, (1 <= n)%Z -> exists ps, from c n ps /\
  forall ret, upv prime_defs "helper" [vlist ret; VNum (Z.of_nat c); VNum n] (vlist (rev ret ++ map VNum ps)).
Proof.
  induction c as [|c IH].
  { intros n N. exists []. split; [constructor|]. intros ret M e w Q C S K; uenter i w1. ev. pcall (zero_num 0). ev.
    eapply reverse_pv; [eassumption|]. intros w' G'. cbn [map] in K. rewrite app_nil_r in K. apply K. eapply grows_trans; eauto. }
  assert (Skip : forall k n, (1 <= n)%Z -> (exists p, (n <= p)%Z /\ prime p /\ (p - n <= Z.of_nat k)%Z) -> exists ps, from (Datatypes.S c) n ps /\
    forall ret, upv prime_defs "helper" [vlist ret; VNum (Z.of_nat (Datatypes.S c)); VNum n] (vlist (rev ret ++ map VNum ps))).
  { assert (Take : forall n, (1 <= n)%Z -> taken n -> upv prime_defs "prime?" [VNum n] (VAtom "t") -> exists ps, from (Datatypes.S c) n ps /\
      forall ret, upv prime_defs "helper" [vlist ret; VNum (Z.of_nat (Datatypes.S c)); VNum n] (vlist (rev ret ++ map VNum ps))).
    { intros n N T U. destruct (IH (n + 1)%Z) as (ps & F & H); [lia|]. exists (n :: ps). split; [now constructor|].
      intros ret M e w Q C S K; uenter i w1. ev. pcall (zero_num (Z.of_nat (Datatypes.S c))).
      destruct (Z.eqb_spec (Z.of_nat (Datatypes.S c)) 0); [lia|]. ev. upcall U. ev.
      replace (Z.of_nat (Datatypes.S c) - 1)%Z with (Z.of_nat c) by lia. rewrite (Z.add_comm 1 n).
      eapply (H (VNum n :: ret)); [eassumption|eassumption|]. intros w' G'. cbn [rev map] in *. rewrite <- app_assoc. apply K. eapply grows_trans; eauto. }
    induction k as [|k IHk]; intros n N (p & Lp & P & Lk).
    all: destruct (taken_pure n N) as (b & B & U); destruct b; [apply Take; [exact N|now apply B|exact U]|].
    { exfalso. assert (p = n) by lia. subst p. enough (false = true) by discriminate. apply B. now right. }
    assert (NT : ~ taken n) by (intro T; apply B in T; discriminate).
    assert (p <> n) by (intros ->; apply NT; now right).
    destruct (IHk (n + 1)%Z) as (ps & F & H0); [lia|exists p; split; [lia|]; split; [exact P|lia]|].
    exists ps. split; [now apply from_skip|]. intros ret M e w Q C S K; uenter i w1. ev. pcall (zero_num (Z.of_nat (Datatypes.S c))).
    destruct (Z.eqb_spec (Z.of_nat (Datatypes.S c)) 0); [lia|]. ev. upcall U. ev. rewrite (Z.add_comm 1 n).
    upcall (H0 ret). apply K. assumption. }
  intros n N. destruct (prime_above n) as (p & Lp & P). apply (Skip (Z.to_nat (p - n)) n N). exists p. split; [exact Lp|]. split; [exact P|lia].
Qed.
Lemma n_primes_pv c ps : first_primes c ps -> upv prime_defs "n-primes" [VNum (Z.of_nat c)] (vlist (map VNum ps)).
Proof.
  intros FP. destruct (helper_pv c 1) as (qs & F & H); [lia|]. rewrite (from_det _ _ _ (first_from _ _ FP) _ F).
  intros M e w Q C S K; uenter i w1. ev. upcall (H []). apply K. assumption.
Qed.
Lemma first_exists c : exists ps, first_primes c ps.
Proof. destruct (helper_pv c 1) as (ps & F & _); [lia|]. exists ps. now apply from_first. Qed.
