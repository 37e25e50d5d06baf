(** Records of Fortran files (C98). *)
From Verif Require Import Base FortranModel.
Open Scope Z_scope.

(** The format (gfortran, unformatted sequential): the number of bytes, the values, the number of
    bytes again, all most significant byte first ([big]) or all least significant byte first. *)
Definition number (big : bool) (l : list Z) : Z := fold_left (fun a x => a * 256 + x) (if big then l else rev l) 0.
Definition stands (big : bool) (n : nat) (l : list Z) (v : Z) : Prop := length l = n /\ (forall x, In x l -> 0 <= x < 256) /\ number big l = v.
Definition record (big : bool) (n : nat) (vs : list Z) (l : list Z) : Prop :=
  exists t ds, stands big 4 t (Z.of_nat (length vs * n)) /\ Forall2 (stands big n) ds vs /\ l = t ++ concat ds ++ t.
(** A size whose four bytes read the same in both directions. *)
Definition palindrome (size : Z) : Prop := size mod 256 = size / 2 ^ 24 /\ (size / 2 ^ 8) mod 256 = (size / 2 ^ 16) mod 256.

Lemma number_memory l : number false l = from_memory l.
Proof.
  unfold number.
  induction l as [|x l IH]; [reflexivity|]. cbn [rev from_memory]. rewrite fold_left_app, IH. cbn [fold_left]. lia.
Qed.
Lemma number_big l : number true l = from_memory (rev l).
Proof. rewrite <- number_memory. unfold number. rewrite rev_involutive. reflexivity. Qed.
Definition bytes (l : list Z) : Prop := forall x, In x l -> 0 <= x < 256.
Lemma memory_round l : bytes l -> in_memory (length l) (from_memory l) = l.
Proof.
  induction l as [|x l IH]; intros B; [reflexivity|]. cbn [length in_memory from_memory]. assert (X : 0 <= x < 256) by (apply B; left; reflexivity).
  rewrite (Z.mul_comm 256), Z_mod_plus_full, Z.mod_small, Z.div_add, Z.div_small by lia. cbn. rewrite IH; [reflexivity|]. intros y Y. apply B. right. exact Y.
Qed.
Lemma swap_memory n l : length l = n -> bytes l -> endian_swap n (from_memory l) = from_memory (rev l).
Proof. intros <- B. unfold endian_swap. rewrite memory_round by exact B. reflexivity. Qed.
Lemma bytes_rev l : bytes l -> bytes (rev l). Proof. intros B x X. apply B, in_rev, X. Qed.
Lemma memory_bound l : bytes l -> 0 <= from_memory l < 256 ^ Z.of_nat (length l).
Proof.
  induction l as [|x l IH]; intros B; [cbn; lia|]. cbn [length from_memory]. assert (X : 0 <= x < 256) by (apply B; left; reflexivity).
  assert (I : 0 <= from_memory l < 256 ^ Z.of_nat (length l)) by (apply IH; intros y Y; apply B; right; exact Y).
  rewrite Nat2Z.inj_succ, Z.pow_succ_r by lia. lia.
Qed.
Lemma int32_mod v : 0 <= v < 2 ^ 32 -> int32 v mod 2 ^ 32 = v.
Proof.
  intros V. unfold int32. destruct (v <? 2 ^ 31) eqn:E; [apply Z.mod_small, V|]. replace (v - 2 ^ 32) with (v + (-1) * 2 ^ 32) by lia.
  rewrite Z_mod_plus_full. apply Z.mod_small, V.
Qed.
Lemma tag_bound t : length t = 4%nat -> bytes t -> 0 <= from_memory t < 2 ^ 32.
Proof. intros L B. pose proof (memory_bound t B) as K. rewrite L in K. exact K. Qed.
Lemma swap_tag_memory t : length t = 4%nat -> bytes t -> swap_tag (int32 (from_memory t)) = int32 (from_memory (rev t)).
Proof. intros L B. unfold swap_tag. rewrite (int32_mod _ (tag_bound t L B)), (swap_memory 4 t L B). reflexivity. Qed.
Lemma read_app n a s : length a = n -> read_bytes n (a ++ s) = Some (a, s).
Proof.
  intros <-. unfold read_bytes. destruct (length (a ++ s) <? length a)%nat eqn:E; [apply Nat.ltb_lt in E; rewrite app_length in E; lia|].
  rewrite firstn_app, skipn_app, Nat.sub_diag, firstn_all, skipn_all, firstn_O, skipn_O, app_nil_r. reflexivity.
Qed.
Lemma elements_concat n ds : (forall d, In d ds -> length d = n) -> elements n (length ds) (concat ds) = map from_memory ds.
Proof.
  induction ds as [|d ds IH]; intros H; [reflexivity|]. cbn [length elements concat map]. pose proof (H d (or_introl eq_refl)) as L. subst n.
  rewrite firstn_app, skipn_app, Nat.sub_diag, firstn_all, skipn_all, firstn_O, skipn_O, app_nil_r. f_equal. apply IH. intros y Y. apply H. right. exact Y.
Qed.
Lemma concat_length n (ds : list (list Z)) : (forall d, In d ds -> length d = n) -> length (concat ds) = (length ds * n)%nat.
Proof. induction ds as [|d ds IH]; intros H; [reflexivity|]. cbn. rewrite app_length, IH by (intros y Y; apply H; right; exact Y). rewrite (H d (or_introl eq_refl)). reflexivity. Qed.
Lemma stands_all big n ds vs : Forall2 (stands big n) ds vs -> length ds = length vs /\ (forall d, In d ds -> length d = n /\ bytes d).
Proof.
  induction 1 as [|d v ds vs (S1 & S2 & _) F (I1 & I2)]; [split; [reflexivity|contradiction]|]. split; [cbn; congruence|]. intros y [<- | Y]; [split; assumption|exact (I2 y Y)].
Qed.
Lemma read_values big n ds vs : Forall2 (stands big n) ds vs -> (if big then map (endian_swap n) (map from_memory ds) else map from_memory ds) = vs.
Proof.
  intros F. induction F as [|d v ds vs (S1 & S2 & S3) F IH]; [destruct big; reflexivity|]. destruct big; cbn [map]; rewrite IH; f_equal.
  - rewrite (swap_memory n d S1 S2), <- number_big. exact S3.
  - rewrite <- number_memory. exact S3.
Qed.
(** The size and what the wrong order of bytes gives for it. *)
Definition reversed (size : Z) : Z := size mod 256 * 2 ^ 24 + (size / 2 ^ 8) mod 256 * 2 ^ 16 + (size / 2 ^ 16) mod 256 * 2 ^ 8 + size / 2 ^ 24.
Lemma reversed_memory t : length t = 4%nat -> bytes t -> from_memory (rev t) = reversed (from_memory t).
Proof.
  intros L B. destruct t as [|a [|b [|c [|d [|]]]]]; try discriminate L. cbn [rev app from_memory].
  assert (H : 0 <= a < 256 /\ 0 <= b < 256 /\ 0 <= c < 256 /\ 0 <= d < 256) by (repeat split; apply B; cbn; auto).
  unfold reversed. set (v := a + 256 * (b + 256 * (c + 256 * (d + 256 * 0)))).
  assert (V1 : v mod 256 = a) by (unfold v; rewrite (Z.mul_comm 256), Z_mod_plus_full, Z.mod_small; lia).
  assert (V2 : v / 2 ^ 8 = b + 256 * (c + 256 * d)) by (unfold v; change (2 ^ 8) with 256; Z.to_euclidean_division_equations; lia).
  assert (V3 : v / 2 ^ 16 = c + 256 * d) by (unfold v; change (2 ^ 16) with 65536; Z.to_euclidean_division_equations; lia).
  assert (V4 : v / 2 ^ 24 = d) by (unfold v; change (2 ^ 24) with 16777216; Z.to_euclidean_division_equations; lia).
  rewrite V1, V2, V3, V4. rewrite (Z.mul_comm 256 (c + 256 * d)), (Z.mul_comm 256 d), !Z_mod_plus_full, !Z.mod_small by lia. lia.
Qed.
Lemma digits size : 0 <= size < 2 ^ 31 ->
  size = size mod 256 + 256 * ((size / 2 ^ 8) mod 256) + 65536 * ((size / 2 ^ 16) mod 256) + 16777216 * (size / 2 ^ 24) /\
  0 <= size mod 256 < 256 /\ 0 <= (size / 2 ^ 8) mod 256 < 256 /\ 0 <= (size / 2 ^ 16) mod 256 < 256 /\ 0 <= size / 2 ^ 24 < 128.
Proof.
  intros S. change (2 ^ 8) with 256. replace (size / 2 ^ 16) with (size / 256 / 256) by (rewrite Z.div_div; [reflexivity|lia|lia]).
  replace (size / 2 ^ 24) with (size / 256 / 256 / 256) by (rewrite !Z.div_div; [reflexivity|lia|lia|lia|lia]).
  pose proof (Z.div_mod size 256 ltac:(lia)) as D1. pose proof (Z.mod_pos_bound size 256 ltac:(lia)) as M1. set (x := size / 256) in *. set (a := size mod 256) in *.
  pose proof (Z.div_mod x 256 ltac:(lia)) as D2. pose proof (Z.mod_pos_bound x 256 ltac:(lia)) as M2. set (y := x / 256) in *. set (b := x mod 256) in *.
  pose proof (Z.div_mod y 256 ltac:(lia)) as D3. pose proof (Z.mod_pos_bound y 256 ltac:(lia)) as M3. set (z := y / 256) in *. set (c := y mod 256) in *.
  clearbody x y z a b c. change (2 ^ 31) with 2147483648 in S. lia.
Qed.
Lemma reversed_small size : 0 <= size < 2 ^ 31 -> size mod 256 < 128 -> 0 <= reversed size < 2 ^ 31.
Proof.
  intros S H. pose proof (digits size S) as D. unfold reversed. set (a := size mod 256) in *. set (b := (size / 2 ^ 8) mod 256) in *. set (c := (size / 2 ^ 16) mod 256) in *. set (d := size / 2 ^ 24) in *.
  clearbody a b c d. lia.
Qed.
Lemma reversed_same size : 0 <= size < 2 ^ 31 -> reversed size = size -> palindrome size.
Proof.
  intros S H. pose proof (digits size S) as D. unfold reversed, palindrome in *. set (a := size mod 256) in *. set (b := (size / 2 ^ 8) mod 256) in *. set (c := (size / 2 ^ 16) mod 256) in *. set (d := size / 2 ^ 24) in *.
  clearbody a b c d. lia.
Qed.
Lemma same_reversed size : 0 <= size < 2 ^ 31 -> palindrome size -> reversed size = size.
Proof.
  intros S H. pose proof (digits size S) as D. unfold reversed, palindrome in *. set (a := size mod 256) in *. set (b := (size / 2 ^ 8) mod 256) in *. set (c := (size / 2 ^ 16) mod 256) in *. set (d := size / 2 ^ 24) in *.
  clearbody a b c d. lia.
Qed.

(** One record, the flag as it is: what is read when the flag ends as [flag]. *)
Lemma read_with big s n vs l rest t ds flag :
  stands big 4 t (Z.of_nat (length vs * n)) -> Forall2 (stands big n) ds vs -> l = t ++ concat ds ++ t ->
  let r := if s : bool then int32 (from_memory (rev t)) else int32 (from_memory t) in
  0 <= r ->
  (if to_size_t r =? Z.of_nat (length vs * n) then Some s else if to_size_t (swap_tag r) =? Z.of_nat (length vs * n) then Some (negb s) else None) = Some flag ->
  read_record s n (length vs) (l ++ rest) = Some (if flag then map (endian_swap n) (map from_memory ds) else map from_memory ds, flag, rest).
Proof.
  intros (T1 & T2 & T3) F -> r R0 EF. destruct (stands_all _ _ _ _ F) as (DL & DD). unfold read_record. rewrite <- !app_assoc. rewrite (read_app 4 t _ T1). cbn [fst snd].
  assert (ER : (if s then swap_tag (int32 (from_memory t)) else int32 (from_memory t)) = r) by (unfold r; destruct s; [apply swap_tag_memory; assumption|reflexivity]).
  rewrite ER. assert (RN : (r <? 0) = false) by (apply Z.ltb_ge, R0). cbv zeta. rewrite RN, EF.
  assert (CL : length (concat ds) = (length vs * n)%nat) by (rewrite <- DL; apply concat_length; intros d D; apply (DD d D)).
  rewrite (read_app _ (concat ds) _ CL). cbn [fst snd]. rewrite (read_app 4 t _ T1). cbn [fst snd]. rewrite Z.eqb_refl.
  rewrite <- DL, (elements_concat n ds) by (intros d D; apply (DD d D)). reflexivity.
Qed.
Lemma tag_cases big t size : stands big 4 t size -> from_memory (if big then rev t else t) = size /\ (0 <= size -> from_memory (if big then t else rev t) = reversed size).
Proof.
  intros (T1 & T2 & T3). destruct big.
  - rewrite number_big in T3. split; [exact T3|]. intros _. rewrite <- T3, <- (reversed_memory (rev t)); [rewrite rev_involutive; reflexivity|rewrite rev_length; exact T1|exact (bytes_rev _ T2)].
  - rewrite number_memory in T3. split; [exact T3|]. intros _. rewrite <- T3. apply reversed_memory; assumption.
Qed.
Lemma int32_small v : 0 <= v < 2 ^ 31 -> int32 v = v. Proof. intros V. unfold int32. destruct (v <? 2 ^ 31) eqn:E; [reflexivity|]. apply Z.ltb_ge in E. lia. Qed.
Lemma size_small v : 0 <= v < 2 ^ 31 -> to_size_t v = v. Proof. intros V. unfold to_size_t. apply Z.mod_small. lia. Qed.

(** The flag already fits the file: every record. *)
Theorem C98_same_order big n vs l rest :
  record big n vs l -> Z.of_nat (length vs * n) < 2 ^ 31 -> read_record big n (length vs) (l ++ rest) = Some (vs, big, rest).
Proof.
  intros (t & ds & T & F & E) S. destruct (tag_cases _ _ _ T) as (T4 & _). set (size := Z.of_nat (length vs * n)) in *. assert (S0 : 0 <= size < 2 ^ 31) by lia.
  rewrite (read_with big big n vs l rest t ds big T F E).
  - rewrite (read_values big n ds vs F). reflexivity.
  - destruct big; rewrite T4, int32_small; lia.
  - fold size. assert (R : (if big then int32 (from_memory (rev t)) else int32 (from_memory t)) = size) by (destruct big; rewrite T4; apply int32_small, S0).
    rewrite R, (size_small _ S0), Z.eqb_refl. reflexivity.
Qed.
(** The flag does not fit: the order is detected when the last byte of the size is below 128 and the
    size does not read the same in both directions. *)
Theorem C98_detected_partial big s n vs l rest :
  record big n vs l -> Z.of_nat (length vs * n) < 2 ^ 31 -> Z.of_nat (length vs * n) mod 256 < 128 -> ~ palindrome (Z.of_nat (length vs * n)) ->
  read_record s n (length vs) (l ++ rest) = Some (vs, big, rest).
Proof.
  intros RC S LOW NP. destruct (Bool.bool_dec s big) as [-> | NE]; [apply C98_same_order; assumption|].
  destruct RC as (t & ds & T & F & E). destruct (tag_cases _ _ _ T) as (T4 & T5). pose proof T as (T1 & T2 & _). set (size := Z.of_nat (length vs * n)) in *.
  assert (S0 : 0 <= size < 2 ^ 31) by lia. specialize (T5 (proj1 S0)). pose proof (reversed_small size S0 LOW) as RB.
  assert (R : (if s then int32 (from_memory (rev t)) else int32 (from_memory t)) = reversed size).
  { destruct s, big; try congruence; rewrite T5; apply int32_small, RB. }
  assert (SW : swap_tag (reversed size) = size).
  { rewrite <- R. destruct s, big; try congruence.
    - rewrite swap_tag_memory; [|rewrite rev_length; exact T1|exact (bytes_rev _ T2)]. rewrite rev_involutive, T4. apply int32_small, S0.
    - rewrite swap_tag_memory by assumption. rewrite T4. apply int32_small, S0. }
  rewrite (read_with big s n vs l rest t ds big T F E).
  - rewrite (read_values big n ds vs F). reflexivity.
  - rewrite R. lia.
  - fold size. rewrite R, SW, (size_small _ RB), (size_small _ S0), Z.eqb_refl. destruct (reversed size =? size) eqn:EQ.
    + exfalso. apply NP, reversed_same; [exact S0|]. apply Z.eqb_eq, EQ.
    + f_equal. destruct s, big; try reflexivity; congruence.
Qed.
(** A file: once the first record is read, all are. *)
Theorem C98_file big w : forall files s,
  Forall2 (fun f l => record big (fst f) (snd f) l /\ Z.of_nat (length (snd f) * fst f) < 2 ^ 31) w files -> s = big ->
  forall rest, read_records s (map (fun f => (fst f, length (snd f))) w) (concat files ++ rest) = Some (map snd w, big, rest).
Proof.
  induction w as [|(n, vs) w IH]; intros files s F -> rest; inversion F as [|? l ? files' (R & S) F' E1 E2]; subst; [reflexivity|].
  cbn [map concat fst snd read_records]. rewrite <- app_assoc. cbn [fst snd] in R, S. rewrite (C98_same_order big n vs l _ R S).
  rewrite (IH files' big F' eq_refl rest). reflexivity.
Qed.
(** The same when the order of the bytes is not known before: the first record tells it, if its size
    does, and the reader keeps it for the rest. *)
Theorem C98_file_detected_partial big s n vs l w files rest :
  record big n vs l -> Z.of_nat (length vs * n) < 2 ^ 31 -> Z.of_nat (length vs * n) mod 256 < 128 -> ~ palindrome (Z.of_nat (length vs * n)) ->
  Forall2 (fun f l => record big (fst f) (snd f) l /\ Z.of_nat (length (snd f) * fst f) < 2 ^ 31) w files ->
  read_records s (map (fun f => (fst f, length (snd f))) ((n, vs) :: w)) (concat (l :: files) ++ rest) = Some (map snd ((n, vs) :: w), big, rest).
Proof.
  intros R S LOW NP F. cbn [map concat fst snd read_records]. rewrite <- app_assoc. rewrite (C98_detected_partial big s n vs l _ R S LOW NP).
  rewrite (C98_file big w files big F eq_refl rest). reflexivity.
Qed.
(** Full statement: a record is read whatever the order of its bytes and the flag. *)
Definition reads_records : Prop := forall big s n vs l rest, record big n vs l -> Z.of_nat (length vs * n) < 2 ^ 31 -> read_record s n (length vs) (l ++ rest) = Some (vs, big, rest).
(** Existence of records. *)
Definition encoded (big : bool) (n : nat) (v : Z) : list Z := if big then rev (in_memory n v) else in_memory n v.
Lemma memory_length n : forall v, length (in_memory n v) = n. Proof. induction n as [|n IH]; intros v; [reflexivity|]. cbn. rewrite IH. reflexivity. Qed.
Lemma memory_bytes n : forall v, bytes (in_memory n v). Proof. induction n as [|n IH]; intros v x X; [destruct X|]. destruct X as [<- | X]; [apply Z.mod_pos_bound; lia|apply (IH _ x X)]. Qed.
Lemma memory_value n : forall v, 0 <= v < 256 ^ Z.of_nat n -> from_memory (in_memory n v) = v.
Proof.
  induction n as [|n IH]; intros v V; [change (256 ^ Z.of_nat 0) with 1 in V; cbn; lia|]. cbn [in_memory from_memory]. rewrite Nat2Z.inj_succ, Z.pow_succ_r in V by lia.
  rewrite IH; [pose proof (Z.div_mod v 256); lia|]. split; [apply Z.div_pos; lia|apply Z.div_lt_upper_bound; lia].
Qed.
Lemma encoded_stands big n v : 0 <= v < 256 ^ Z.of_nat n -> stands big n (encoded big n v) v.
Proof.
  intros V. unfold encoded. destruct big; (split; [rewrite ?rev_length; apply memory_length|]); (split; [try apply (bytes_rev (in_memory n v)); apply memory_bytes|]).
  - rewrite number_big, rev_involutive. apply memory_value, V.
  - rewrite number_memory. apply memory_value, V.
Qed.
Definition written (big : bool) (n : nat) (vs : list Z) : list Z :=
  let t := encoded big 4 (Z.of_nat (length vs * n)) in t ++ concat (map (encoded big n) vs) ++ t.
Lemma written_record big n vs : Z.of_nat (length vs * n) < 2 ^ 31 -> (forall v, In v vs -> 0 <= v < 256 ^ Z.of_nat n) -> record big n vs (written big n vs).
Proof.
  intros S V. exists (encoded big 4 (Z.of_nat (length vs * n))), (map (encoded big n) vs). split; [apply encoded_stands; change (256 ^ Z.of_nat 4) with (2 ^ 32); lia|]. split; [|reflexivity].
  clear S. induction vs as [|v vs IH]; [constructor|]. cbn [map]. constructor; [apply encoded_stands, V; left; reflexivity|]. apply IH. intros y Y. apply V. right. exact Y.
Qed.
Example C98_example : read_record false 4 3 (written true 4 [1; 2; 65536] ++ [7]) = Some ([1; 2; 65536], true, [7]).
Proof.
  apply (C98_detected_partial true false 4 [1; 2; 65536]); [apply written_record; [reflexivity|intros v V; cbn in V; intuition subst; cbn; lia]|reflexivity|reflexivity|].
  intros (K & _). vm_compute in K. discriminate K.
Qed.
Example C98_file_detected_example : read_records false [(4%nat, 1%nat); (2%nat, 128%nat)] (concat [written true 4 [300]; written true 2 (repeat 7 128)] ++ []) = Some ([[300]; repeat 7 128], true, []).
Proof. vm_compute. reflexivity. Qed.
Example C98_file_example : read_records true [(4%nat, 1%nat); (2%nat, 2%nat)] (concat [written true 4 [300]; written true 2 [5; 6]] ++ []) = Some ([[300]; [5; 6]], true, []).
Proof.
  apply (C98_file true [(4%nat, [300]); (2%nat, [5; 6])]); [|reflexivity].
  constructor; [split; [apply written_record; [reflexivity|intros v V; cbn in V; intuition subst; cbn; lia]|reflexivity]|].
  constructor; [split; [apply written_record; [reflexivity|intros v V; cbn in V; intuition subst; cbn; lia]|reflexivity]|constructor].
Qed.
(** 44 values of 4 bytes, most significant byte first: the size 176 looks negative, and the reader
    stops. *)
Theorem C98_refuted_negative : ~ reads_records.
Proof.
  intros H. assert (R : record true 4 (repeat 1 44) (written true 4 (repeat 1 44))) by (apply written_record; [reflexivity|intros v V; apply repeat_spec in V; subst; cbn; lia]).
  specialize (H true false 4%nat _ _ [] R eq_refl). vm_compute in H. discriminate H.
Qed.
(** A size that reads the same in both directions: the values are read in the wrong order of bytes. *)
Theorem C98_palindrome_misread big n vs l rest :
  record big n vs l -> Z.of_nat (length vs * n) < 2 ^ 31 -> palindrome (Z.of_nat (length vs * n)) ->
  read_record (negb big) n (length vs) (l ++ rest) = Some (map (endian_swap n) vs, negb big, rest).
Proof.
  intros (t & ds & T & F & E) S PAL. destruct (tag_cases _ _ _ T) as (T4 & T5). set (size := Z.of_nat (length vs * n)) in *.
  assert (S0 : 0 <= size < 2 ^ 31) by lia. specialize (T5 (proj1 S0)). rewrite (same_reversed size S0 PAL) in T5.
  assert (R : (if negb big then int32 (from_memory (rev t)) else int32 (from_memory t)) = size) by (destruct big; cbn [negb]; rewrite T5; apply int32_small, S0).
  rewrite (read_with big (negb big) n vs l rest t ds (negb big) T F E).
  - f_equal. f_equal. f_equal. rewrite <- (read_values big n ds vs F). destruct big; cbn [negb]; [|reflexivity].
    rewrite !map_map. apply map_ext_in. intros d D. destruct (stands_all _ _ _ _ F) as (_ & DD). destruct (DD d D) as (D1 & D2).
    rewrite (swap_memory n d D1 D2), (swap_memory n (rev d)), rev_involutive; [reflexivity|rewrite rev_length; exact D1|exact (bytes_rev _ D2)].
  - rewrite R. lia.
  - fold size. rewrite R, (size_small _ S0), Z.eqb_refl. reflexivity.
Qed.
Definition flag_read (o : option (list Z * bool * list Z)) : bool := match o with Some (_, f, _) => f | None => false end.
(** 16448 values of 4 bytes (65792 bytes). *)
Theorem C98_refuted_palindrome : exists n vs l, record true n vs l /\ Z.of_nat (length vs * n) mod 256 < 128 /\ Z.of_nat (length vs * n) < 2 ^ 31 /\
  read_record false n (length vs) l <> Some (vs, true, []).
Proof.
  set (k := Z.to_nat 16448). assert (LK : Z.of_nat (length (repeat 1 k) * 4) = 65792) by (rewrite repeat_length, Nat2Z.inj_mul; unfold k; rewrite Z2Nat.id; [reflexivity|lia]).
  assert (R : record true 4 (repeat 1 k) (written true 4 (repeat 1 k))) by (apply written_record; [rewrite LK; reflexivity|intros v V; apply repeat_spec in V; subst; cbn; lia]).
  exists 4%nat, (repeat 1 k), (written true 4 (repeat 1 k)). split; [exact R|]. rewrite !LK. split; [reflexivity|]. split; [reflexivity|].
  intros K. pose proof (C98_palindrome_misread true 4 (repeat 1 k) _ [] R) as H. rewrite LK, app_nil_r in H. specialize (H eq_refl (conj eq_refl eq_refl)).
  pose proof (f_equal flag_read (eq_trans (eq_sym K) H)) as D. discriminate D.
Qed.
Lemma concat_bytes ds : (forall d, In d ds -> bytes d) -> bytes (concat ds).
Proof. intros H x X. apply in_concat in X. destruct X as (d & D & X). exact (H d D x X). Qed.
Lemma rev_concat (ds : list (list Z)) : rev (concat ds) = concat (map (@rev Z) (rev ds)).
Proof. induction ds as [|d ds IH]; [reflexivity|]. cbn [concat rev]. rewrite rev_app_distr, IH, map_app, concat_app. cbn [map concat]. rewrite app_nil_r. reflexivity. Qed.
(** The header of a file, eleven fields: what is read, in each order of bytes. *)
Lemma header_read big s fs l rest : length fs = 11%nat -> record big 4 fs l -> read_header s (l ++ rest) = Some (if big then rev fs else fs, big, rest).
Proof.
  intros LF (t & ds & T & F & E). destruct (stands_all _ _ _ _ F) as (DL & DD). rewrite LF in DL, T.
  assert (CL : length (concat ds) = 44%nat) by (rewrite (concat_length 4 ds) by (intros d D; apply (DD d D)); rewrite DL; reflexivity).
  assert (CB : bytes (concat ds)) by (apply concat_bytes; intros d D; apply (DD d D)).
  assert (R : record big 44 [number big (concat ds)] l).
  { exists t, [concat ds]. split; [exact T|]. split; [constructor; [split; [exact CL|split; [exact CB|reflexivity]]|constructor]|]. cbn [concat]. rewrite app_nil_r. exact E. }
  unfold read_header. change (header_fields * 4)%nat with 44%nat. assert (K : read_record s 44 1 (l ++ rest) = Some ([number big (concat ds)], big, rest)).
  { apply (C98_detected_partial big s 44 [number big (concat ds)] l rest R); [reflexivity|reflexivity|]. intros (K & _). cbn [length] in K. vm_compute in K. discriminate K. }
  rewrite K.
  cbn [hd]. f_equal. f_equal. f_equal. unfold header_fields. destruct big.
  - rewrite number_big. rewrite <- CL, <- (rev_length (concat ds)), (memory_round (rev (concat ds))) by exact (bytes_rev _ CB). rewrite rev_concat.
    assert (L2 : length (map (@rev Z) (rev ds)) = 11%nat) by (rewrite map_length, rev_length; exact DL). rewrite <- L2.
    rewrite (elements_concat 4) by (intros d D; apply in_map_iff in D; destruct D as (d' & <- & D); rewrite rev_length; apply (DD d'), in_rev; exact D).
    rewrite map_map, map_rev. f_equal. clear - F. induction F as [|d v ds vs (S1 & S2 & S3) F IH]; [reflexivity|]. cbn [map]. rewrite IH, <- number_big, S3. reflexivity.
  - rewrite number_memory. rewrite <- CL, (memory_round (concat ds) CB), <- DL. rewrite (elements_concat 4) by (intros d D; apply (DD d D)). exact (read_values false 4 ds fs F).
Qed.
Definition reads_headers (ok : bool -> Prop) : Prop := forall big s fs l rest, ok big -> length fs = 11%nat -> record big 4 fs l -> read_header s (l ++ rest) = Some (fs, big, rest).
(** Least significant byte first. *)
Theorem C98_header_partial : reads_headers (fun big => big = false).
Proof. intros big s fs l rest -> LF R. exact (header_read false s fs l rest LF R). Qed.
(** Most significant byte first: the fields are exchanged. *)
Theorem C98_header_exchanged s fs l rest : length fs = 11%nat -> record true 4 fs l -> read_header s (l ++ rest) = Some (rev fs, true, rest).
Proof. exact (header_read true s fs l rest). Qed.
Theorem C98_refuted_header : ~ reads_headers (fun _ => True).
Proof.
  intros H. assert (R : record true 4 [64; 64; 64; 0; 0; 0; 0; 0; 0; 0; 70] (written true 4 [64; 64; 64; 0; 0; 0; 0; 0; 0; 0; 70])) by (apply written_record; [reflexivity|intros v V; cbn in V; intuition subst; cbn; lia]).
  assert (L : length [64; 64; 64; 0; 0; 0; 0; 0; 0; 0; 70] = 11%nat) by reflexivity.
  pose proof (H true false _ _ [] I L R) as K. rewrite (C98_header_exchanged false _ _ [] L R) in K. discriminate K.
Qed.
Example C98_header_example : read_header true (written false 4 [64; 64; 32; 1; 2; 3; 4; 5; 6; 7; 70] ++ []) = Some ([64; 64; 32; 1; 2; 3; 4; 5; 6; 7; 70], false, []).
Proof. apply C98_header_partial; [reflexivity|reflexivity|]. apply written_record; [reflexivity|intros v V; cbn in V; intuition subst; cbn; lia]. Qed.

Print Assumptions C98_same_order.
Print Assumptions C98_detected_partial.
Print Assumptions C98_file.
Print Assumptions C98_file_detected_partial.
Print Assumptions C98_refuted_negative.
Print Assumptions C98_palindrome_misread.
Print Assumptions C98_refuted_palindrome.
Print Assumptions C98_header_partial.
Print Assumptions C98_header_exchanged.
Print Assumptions C98_refuted_header.
