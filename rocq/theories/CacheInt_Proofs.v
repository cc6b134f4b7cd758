(** Lemmas for C116. *)
From Coq Require Import List ZArith Lia Bool.
From Verif Require Import Base RclTime Cache_Model CacheInt_Model.
Import ListNotations.
Open Scope Z_scope.

Lemma to_int_small z : 0 <= z <= int_max -> to_int z = z.
Proof. unfold int_max. intros H. unfold to_int. rewrite Z.mod_small; lia. Qed.
Lemma to_int_big z : int_max < z < 2 ^ 32 -> to_int z = z - 2 ^ 32.
Proof. unfold int_max. intros H. unfold to_int. replace (z + 2 ^ 31) with (z - 2 ^ 31 + 1 * 2 ^ 32) by lia. rewrite Z.mod_add by lia. rewrite Z.mod_small; lia. Qed.
Lemma pred_ok z : - 2 ^ 31 < z -> pred_int z = Ok (z - 1).
Proof. intros H. unfold pred_int. destruct (Z.ltb_spec (z - 1) (- 2 ^ 31)); [lia|auto]. Qed.
Lemma succ_ok z : z < int_max -> succ_int z = Ok (z + 1).
Proof. intros H. unfold succ_int. destruct (Z.ltb_spec int_max (z + 1)); [lia|auto]. Qed.

Section Proofs.
Context {E : Type} (stamp : E -> time).
Variable l : list E.
Notation size := (size l).
Notation at_index := (at_index l).

Lemma at_nat i : at_index (Z.of_nat i) = match nth_error l i with Some e => Ok e | None => Err UB end.
Proof. unfold CacheInt_Model.at_index. destruct (Z.ltb_spec (Z.of_nat i) 0); [lia|]. now rewrite Nat2Z.id. Qed.

Lemma skipn_nth i (e : E) : nth_error l i = Some e -> skipn i l = e :: skipn (S i) l.
Proof. revert i. induction l as [|x t IH]; intros [|i] H; cbn in *; try discriminate; [congruence|]. now apply IH. Qed.
Section Small.
Hypothesis small : size <= int_max.
Let big : int_max = 2 ^ 31 - 1 := eq_refl.

Lemma start_same start i fuel : (i < fuel)%nat -> (i < length l)%nat -> 
  start_loop stamp l fuel start (Z.of_nat i) = (do j <- surround_start stamp start l i; Ok (Z.of_nat j)).
Proof.
  revert fuel. induction i as [|i IH]; intros [|fuel] Hf Hi; try lia; cbn [start_loop surround_start].
  - reflexivity.
  - destruct (Z.ltb_spec 0 (Z.of_nat (S i))); [|lia]. rewrite at_nat. destruct (nth_error l (S i)) as [e|] eqn:En; [|apply nth_error_None in En; lia]. cbn [bind].
    destruct (time_gt (stamp e) start) as [[]|]; cbn [bind]; auto. rewrite pred_ok by lia. cbn [bind]. replace (Z.of_nat (S i) - 1) with (Z.of_nat i) by lia. apply IH; lia.
Qed.
Lemma end_same stop k i fuel : (k < fuel)%nat -> (i + k = length l - 1)%nat -> (i < length l)%nat ->
  end_loop stamp l fuel stop (Z.of_nat i) = (do j <- scan_up (fun e => time_lt (stamp e) stop) l k i; Ok (Z.of_nat j)).
Proof.
  unfold CacheInt_Model.size in small. revert i fuel. induction k as [|k IH]; intros i [|fuel] Hf Hs Hi; try lia; cbn [end_loop scan_up]; rewrite to_int_small by (unfold CacheInt_Model.size; lia); rewrite pred_ok by (unfold CacheInt_Model.size; lia); cbn [bind]; unfold CacheInt_Model.size.
  - destruct (Z.ltb_spec (Z.of_nat i) (Z.of_nat (length l) - 1)); [lia|auto].
  - destruct (Z.ltb_spec (Z.of_nat i) (Z.of_nat (length l) - 1)); [|lia]. rewrite at_nat. destruct (nth_error l i) as [e|] eqn:En; [|apply nth_error_None in En; lia]. cbn [bind].
    destruct (time_lt (stamp e) stop) as [[]|]; cbn [bind]; auto. rewrite succ_ok by lia. cbn [bind]. replace (Z.of_nat i + 1) with (Z.of_nat (S i)) by lia. apply IH; lia.
Qed.
Lemma copy_same k i j fuel : (k < fuel)%nat -> (i + k = S j)%nat -> (j < length l)%nat ->
  copy_loop l fuel (Z.of_nat i) (Z.of_nat j) = Ok (firstn k (skipn i l)).
Proof.
  unfold CacheInt_Model.size in small. revert i fuel. induction k as [|k IH]; intros i [|fuel] Hf Hs Hi; try lia; cbn [copy_loop].
  - destruct (Z.leb_spec (Z.of_nat i) (Z.of_nat j)); [lia|auto].
  - destruct (Z.leb_spec (Z.of_nat i) (Z.of_nat j)); [|lia]. rewrite at_nat. destruct (nth_error l i) as [e|] eqn:En; [|apply nth_error_None in En; lia]. cbn [bind].
    rewrite succ_ok by lia. cbn [bind]. replace (Z.of_nat i + 1) with (Z.of_nat (S i)) by lia. rewrite IH by lia. cbn [bind].
    rewrite (skipn_nth i e En). reflexivity.
Qed.
Lemma surround_start_le start i j : surround_start stamp start l i = Ok j -> (j <= i)%nat.
Proof.
  revert j. induction i as [|i IH]; intros j; cbn [surround_start]; [intros [= <-]; lia|]. destruct (nth_error l (S i)); [|discriminate]. destruct (time_gt (stamp e) start) as [[]|]; cbn; try discriminate.
  - intros H. apply IH in H. lia.
  - intros [= <-]. lia.
Qed.
Lemma scan_up_le p k i j : scan_up p l k i = Ok j -> (i <= j <= i + k)%nat.
Proof.
  revert i. induction k as [|k IH]; intros i; cbn; [intros [= <-]; lia|]. destruct (nth_error l i); [|discriminate]. destruct (p e) as [[]|]; cbn; try discriminate.
  - intros H. apply IH in H. lia.
  - intros [= <-]. lia.
Qed.
Lemma surrounding_same start stop : getSurroundingInterval_int stamp l start stop = getSurroundingInterval stamp start stop l.
Proof.
  pose proof small as Hs. unfold getSurroundingInterval_int, getSurroundingInterval. unfold CacheInt_Model.size in *.
  destruct (Nat.eq_dec (length l) 0) as [Z0|NZ]; [rewrite Z0; apply length_zero_iff_nil in Z0; rewrite Z0; reflexivity|].
  destruct (Z.eqb_spec (Z.of_nat (length l)) 0); [lia|]. rewrite to_int_small, pred_ok by lia. cbn [bind].
  replace (Z.of_nat (length l) - 1) with (Z.of_nat (length l - 1)) by lia. rewrite start_same by lia.
  transitivity (do i <- surround_start stamp start l (length l - 1); do j <- scan_up (fun e => time_lt (stamp e) stop) l (length l - 1 - i) i; Ok (slice i (j + 1) l)); [|destruct l; [cbn in NZ; lia|reflexivity]].
  destruct (surround_start stamp start l (length l - 1)) as [i|] eqn:Ei; cbn [bind]; auto. apply surround_start_le in Ei.
  rewrite (end_same stop (length l - 1 - i)) by lia. destruct (scan_up _ l (length l - 1 - i) i) as [j|] eqn:Ej; cbn [bind]; auto. apply scan_up_le in Ej.
  rewrite succ_ok by lia. cbn [bind]. destruct (Z.ltb_spec (Z.of_nat j - Z.of_nat i + 1) 0); [lia|]. rewrite (copy_same (j + 1 - i)) by lia. reflexivity.
Qed.
Lemma after_same t n fuel oi x : (n < fuel)%nat -> (n <= length l)%nat -> x = match oi with None => -1 | Some i => Z.of_nat i end ->
  after_loop stamp l fuel t (Z.of_nat n - 1) x = (do o <- after_index stamp t l n oi; Ok (match o with None => -1 | Some i => Z.of_nat i end)).
Proof.
  unfold CacheInt_Model.size in small. revert fuel oi x. induction n as [|n IH]; intros [|fuel] oi x Hf Hn ->; try lia; cbn [after_loop after_index].
  - reflexivity.
  - replace (Z.of_nat (S n) - 1) with (Z.of_nat n) by lia. destruct (Z.leb_spec 0 (Z.of_nat n)); [|lia]. rewrite at_nat. destruct (nth_error l n) as [e|]; cbn [bind]; auto.
    destruct (time_gt (stamp e) t) as [[]|]; cbn [bind]; auto. rewrite pred_ok by lia. cbn [bind]. apply IH; auto; lia.
Qed.
Lemma after_index_lt t n oi i : after_index stamp t l n oi = Ok (Some i) -> oi = Some i \/ (i < length l)%nat.
Proof.
  revert oi. induction n as [|n IH]; intros oi; cbn; [intros [= ->]; auto|]. destruct (nth_error l n) as [e|] eqn:En; [|discriminate]. destruct (time_gt (stamp e) t) as [[]|]; cbn; try discriminate.
  - intros H. apply IH in H as [[= <-]|H]; auto. right. apply nth_error_Some. congruence.
  - intros [= ->]. auto.
Qed.
Lemma elem_after_same t : getElemAfterTime_int stamp l t = getElemAfterTime stamp t l.
Proof.
  pose proof small as Hs. unfold getElemAfterTime_int, getElemAfterTime. unfold CacheInt_Model.size in *. rewrite to_int_small, pred_ok by lia. cbn [bind].
  rewrite (after_same t (length l) _ None) by (auto; lia). destruct (after_index stamp t l (length l) None) as [[i|]|] eqn:Ei; cbn [bind]; auto.
  apply after_index_lt in Ei as [|Ei]; [discriminate|]. destruct (Z.leb_spec 0 (Z.of_nat i)); [|lia]. rewrite at_nat. destruct (nth_error l i) eqn:En; [reflexivity|]. apply nth_error_None in En; lia.
Qed.
End Small.

(** for all sizes the cache can have *)
Lemma before_same t k i fuel : size < 2 ^ 32 -> (k < fuel)%nat -> (i + k = length l)%nat ->
  forall x, before_loop stamp l fuel t (Z.of_nat i) x = (do j <- scan_up (fun e => time_lt (stamp e) t) l k i; Ok (if (i <? j)%nat then to_int (Z.of_nat j - 1) else x)).
Proof.
  intros Hs. unfold CacheInt_Model.size in Hs. revert i fuel. induction k as [|k IH]; intros i [|fuel] Hf Hk x; try lia; cbn [before_loop scan_up]; unfold CacheInt_Model.size.
  - destruct (Z.ltb_spec (Z.of_nat i) (Z.of_nat (length l))); [lia|]. cbn [bind]. now rewrite Nat.ltb_irrefl.
  - destruct (Z.ltb_spec (Z.of_nat i) (Z.of_nat (length l))); [|lia]. rewrite at_nat. destruct (nth_error l i) as [e|] eqn:En; [|apply nth_error_None in En; lia]. cbn [bind].
    destruct (time_lt (stamp e) t) as [[]|]; cbn [bind]; auto; [|now rewrite Nat.ltb_irrefl].
    rewrite Z.mod_small by lia. replace (Z.of_nat i + 1) with (Z.of_nat (S i)) by lia. rewrite IH by lia.
    destruct (scan_up _ l k (S i)) as [j|] eqn:Ej; cbn [bind]; auto. apply scan_up_le in Ej. f_equal.
    destruct (Nat.ltb_spec i j); [|lia]. destruct (Nat.ltb_spec (S i) j); auto. replace j with (S i) by lia. f_equal. lia.
Qed.
Lemma elem_before_exact t : size < 2 ^ 32 ->
  getElemBeforeTime_int stamp l t = (do j <- scan_up (fun e => time_lt (stamp e) t) l (length l) 0;
    Ok (if int_max + 1 <? Z.of_nat j then None else match j with O => None | S j => nth_error l j end)).
Proof.
  intros Hs. unfold getElemBeforeTime_int. change 0 with (Z.of_nat 0). rewrite (before_same t (length l) 0) by (auto; lia). unfold CacheInt_Model.size in Hs.
  destruct (scan_up _ l (length l) 0) as [j|] eqn:Ej; cbn [bind]; auto. apply scan_up_le in Ej. change (Z.of_nat 0) with 0. destruct j as [|j]; [reflexivity|].
  destruct (Nat.ltb_spec 0 (S j)); [|lia]. replace (Z.of_nat (S j) - 1) with (Z.of_nat j) by lia. destruct (Z.ltb_spec (int_max + 1) (Z.of_nat (S j))) as [B|B].
  - rewrite to_int_big by lia. destruct (Z.leb_spec 0 (Z.of_nat j - 2 ^ 32)); [lia|reflexivity].
  - rewrite to_int_small by lia. destruct (Z.leb_spec 0 (Z.of_nat j)); [|lia]. rewrite at_nat. destruct (nth_error l j) eqn:En; [reflexivity|]. apply nth_error_None in En; lia.
Qed.
Lemma elem_before_same t : size <= int_max -> getElemBeforeTime_int stamp l t = getElemBeforeTime stamp t l.
Proof.
  intros Hs. rewrite elem_before_exact by (unfold int_max in Hs; lia). unfold getElemBeforeTime. unfold CacheInt_Model.size in Hs. destruct (scan_up _ l (length l) 0) as [j|] eqn:Ej; cbn [bind]; auto.
  apply scan_up_le in Ej. destruct (Z.ltb_spec (int_max + 1) (Z.of_nat j)); [lia|auto].
Qed.
Lemma big_index : int_max < size < 2 ^ 32 -> pred_int (to_int size) = Err UB \/ pred_int (to_int size) = Ok (size - 2 ^ 32 - 1).
Proof. intros H. rewrite to_int_big by auto. unfold pred_int. destruct (Z.ltb_spec (size - 2 ^ 32 - 1) (- 2 ^ 31)); auto. Qed.
Lemma elem_after_big t : int_max < size < 2 ^ 32 -> getElemAfterTime_int stamp l t = Err UB \/ getElemAfterTime_int stamp l t = Ok None.
Proof.
  intros H. unfold getElemAfterTime_int. destruct (big_index H) as [-> | ->]; cbn [bind]; auto. right. cbn [after_loop]. destruct (Z.leb_spec 0 (size - 2 ^ 32 - 1)); [lia|]. reflexivity.
Qed.
Lemma surrounding_big a b : int_max < size < 2 ^ 32 -> getSurroundingInterval_int stamp l a b = Err UB.
Proof.
  intros H. unfold getSurroundingInterval_int. unfold int_max in H. destruct (Z.eqb_spec size 0); [lia|]. destruct (big_index H) as [Eq | Eq]; rewrite Eq; cbn [bind]; auto.
  cbn [start_loop]. destruct (Z.ltb_spec 0 (size - 2 ^ 32 - 1)); [lia|]. cbn [bind end_loop]. rewrite Eq. cbn [bind]. rewrite Z.ltb_irrefl. cbn [bind].
  rewrite Z.sub_diag. change (succ_int 0) with (Ok 1). cbn [bind]. change (1 <? 0) with false. cbv iota. cbn [copy_loop]. rewrite Z.leb_refl. unfold CacheInt_Model.at_index.
  destruct (Z.ltb_spec (size - 2 ^ 32 - 1) 0); [reflexivity|lia].
Qed.
End Proofs.

Section Lives.
Context {E : Type} (stamp : E -> time).
(** what is kept is never longer than the largest size set *)
Definition fits (s : state E) : Prop := Z.of_nat (length (contents s)) <= int_max /\ match cap s with Some c => (0 < c)%nat /\ Z.of_nat c <= int_max | None => True end.
Lemma insert_back_length (e : E) rl r : insert_back stamp e rl = Ok r -> length r = S (length rl).
Proof.
  revert r. induction rl as [|x t IH]; intros r; cbn [insert_back]; [intros [= <-]; reflexivity|]. destruct (time_gt (stamp x) (stamp e)) as [[]|]; cbn [bind]; try discriminate.
  - destruct (insert_back stamp e t) as [r'|]; cbn [bind]; [|discriminate]. intros [= <-]. cbn. f_equal. auto.
  - intros [= <-]. reflexivity.
Qed.
Lemma pop_while_length c (l l' : list E) : (0 < c)%nat -> pop_while c l = Ok l' -> (length l' < c)%nat.
Proof.
  intros Hc. induction l as [|x t IH]; cbn [pop_while].
  - destruct (Nat.leb_spec c (length (@nil E))); [discriminate|]. intros [= <-]. auto.
  - destruct (Nat.leb_spec c (length (x :: t))); auto. intros [= <-]. auto.
Qed.
Lemma step_fits (s : state E) o : fits s -> (forall n, o = SetSize n -> Z.of_nat n <= int_max) -> fits (fst (step stamp s o)).
Proof.
  intros [H1 H2] Ho. destruct o as [n|e| | | | | |]; cbn [step fst]; try (split; assumption).
  - specialize (Ho n eq_refl). destruct n; cbn; [split; auto|]. split; cbn; auto. split; [lia|auto].
  - unfold add. destruct (cap s) as [c|] eqn:Ec; [|cbn; split; rewrite ?Ec; auto]. destruct (pop_while c (contents s)) as [l|] eqn:Ep; [|cbn; split; rewrite ?Ec; auto].
    apply pop_while_length in Ep; [|tauto]. destruct (insert_back stamp e (rev l)) as [r|] eqn:Ei; cbn [fst]; split; cbn [contents cap]; rewrite ?Ec; auto; [|lia].
    apply insert_back_length in Ei. rewrite rev_length in *. lia.
Qed.
Lemma step_same (s : state E) o : fits s -> step_int stamp s o = step stamp s o.
Proof.
  intros [H _]. destruct o; cbn [step_int step]; auto.
  - now rewrite surrounding_same.
  - now rewrite elem_before_same.
  - now rewrite elem_after_same.
Qed.
Lemma run_same h : forall (s : state E), fits s -> (forall n, In (SetSize n) h -> Z.of_nat n <= int_max) -> run_int stamp s h = run stamp s h.
Proof.
  induction h as [|o h IH]; intros s F Hh; cbn [run_int run]; auto. rewrite step_same by auto.
  assert (fits (fst (step stamp s o))) as F1 by (apply step_fits; auto; intros n ->; apply Hh; left; auto).
  destruct (step stamp s o) as [s1 x]. cbn in F1. rewrite IH; auto. intros n Hn. apply Hh. right; auto.
Qed.
Lemma run_fits h : forall (s : state E), fits s -> (forall n, In (SetSize n) h -> Z.of_nat n <= int_max) -> fits (fst (run stamp s h)).
Proof.
  induction h as [|o h IH]; intros s F Hh; cbn [run]; auto.
  assert (fits (fst (step stamp s o))) as F1 by (apply step_fits; auto; intros n ->; apply Hh; left; auto).
  destruct (step stamp s o) as [s1 x]. cbn in F1. specialize (IH s1 F1). destruct (run stamp s1 h) as [s2 xs]. cbn in *. apply IH. intros n Hn. apply Hh. right; auto.
Qed.
Lemma run_adds (es : list E) : forall (s : state E), run_int stamp s (map (fun e => Add e) es) = run stamp s (map (fun e => Add e) es).
Proof. induction es as [|e es IH]; intros s; cbn [map run_int run]; auto. change (step_int stamp s (Add e)) with (step stamp s (Add e)). destruct (step stamp s (Add e)). now rewrite IH. Qed.
(** a scan passes the first [m] elements if they all satisfy the test and no test fails *)
Lemma scan_up_passes (p : E -> res bool) (l : list E) : forall k m i, (i + k = length l)%nat -> (i <= m <= length l)%nat ->
  (forall j x, (j < m)%nat -> nth_error l j = Some x -> p x = Ok true) -> (forall x, In x l -> exists b, p x = Ok b) -> exists j, scan_up p l k i = Ok j /\ (m <= j)%nat.
Proof.
  induction k as [|k IH]; intros m i Hk Hm H1 H2; cbn [scan_up]; [exists i; split; auto; lia|].
  destruct (nth_error l i) as [x|] eqn:Ex; [|apply nth_error_None in Ex; lia]. destruct (Nat.eq_dec i m) as [->|Ne].
  - destruct (H2 x) as ([|] & ->); [eapply nth_error_In; eauto| |]; cbn [bind]; [|eauto].
    destruct (scan_up p l k (S m)) as [j|] eqn:Ej.
    + exists j. split; auto. apply scan_up_le in Ej. lia.
    + exfalso. destruct (Nat.eq_dec k 0) as [->|Nk]; [discriminate|].
      assert (forall k i, (i + k = length l)%nat -> exists j, scan_up p l k i = Ok j) as T.
      { clear -H2. induction k as [|k IH]; intros i Hi; cbn [scan_up]; eauto. destruct (nth_error l i) as [x|] eqn:Ex; [|apply nth_error_None in Ex; lia].
        destruct (H2 x) as ([|] & ->); [eapply nth_error_In; eauto| |]; cbn [bind]; eauto. apply IH. lia. }
      destruct (T k (S m)) as (j & Ej'); [lia|]. congruence.
  - rewrite (H1 i x) by (auto; lia). cbn [bind]. apply IH; auto; lia.
Qed.
Lemma ctor_fits n : Z.of_nat n <= int_max -> fits (ctor (E := E) n).
Proof. intros H. destruct n; split; cbn; auto; try (unfold int_max; lia). split; [lia|auto]. Qed.
End Lives.
