(** C47, C48: the trace collector. *)
From Coq Require Import String Ascii List Bool Arith ZArith Decimal DecimalString DecimalZ DecimalPos Lia.
From Verif Require Import Tracing.
Import ListNotations.
Local Open Scope list_scope.

(** ** Specification *)

(** The last [n] elements of a list. *)
Definition last_n {A : Type} (n : nat) (l : list A) : list A := skipn (length l - n) l.

(** [100000] as a natural number (kept opaque to avoid computing it). *)
Definition limit : nat := Z.to_nat 100000.

(** The events a thread submits, in program order. *)
Definition submissions (l : list op) : list trace_event :=
  flat_map (fun o => match o with Submit e => [e] | Dump => [] end) l.

(** The events of thread [t] in a global history. *)
Definition of_thread (t : nat) (h : list (nat * trace_event)) : list trace_event :=
  map snd (filter (fun x => fst x =? t) h).

(** ** Sequential behaviour (C47) *)
Lemma last_n_all : forall A n (l : list A), length l <= n -> last_n n l = l.
Proof. intros A n l H. unfold last_n. replace (length l - n) with 0 by lia. reflexivity. Qed.

Lemma last_n_length : forall A n (l : list A), length (last_n n l) = Nat.min (length l) n.
Proof. intros. unfold last_n. rewrite skipn_length. lia. Qed.

Lemma skipn_tl : forall A n (l : list A), tl (skipn n l) = skipn (S n) l.
Proof. induction n as [|n IH]; intros [|a l]; cbn [skipn tl]; auto. rewrite IH. destruct l; reflexivity. Qed.

Lemma last_n_app1 : forall A n (l : list A) a, n <> 0 ->
  last_n n (l ++ [a]) = if n <? length (last_n n l ++ [a]) then tl (last_n n l ++ [a]) else last_n n l ++ [a].
Proof.
  intros A n l a Hn. rewrite app_length, last_n_length. cbn [length].
  destruct (Nat.ltb_spec n (Nat.min (length l) n + 1)) as [H|H].
  - assert (L : n <= length l) by lia. unfold last_n. rewrite app_length. cbn [length].
    replace (length l + 1 - n) with (S (length l - n)) by lia.
    rewrite <- skipn_tl, skipn_app. replace (length l - n - length l) with 0 by lia. reflexivity.
  - assert (L : length l < n) by lia. rewrite !last_n_all; auto; try lia. rewrite app_length; cbn [length]; lia.
Qed.

Lemma limit_ltb : forall n, (max_traces <? Z.of_nat n)%Z = (limit <? n).
Proof.
  intro n. unfold limit, max_traces. destruct (Z.ltb_spec 100000 (Z.of_nat n)); symmetry;
    [apply Nat.ltb_lt|apply Nat.ltb_ge]; lia.
Qed.

Lemma limit_pos : limit <> 0.
Proof. unfold limit. lia. Qed.

Lemma submit_last : forall l e, submit_event (last_n limit l) e = last_n limit (l ++ [e]).
Proof.
  intros l e. unfold submit_event, trim, push_back. rewrite limit_ltb. symmetry. apply last_n_app1. apply limit_pos.
Qed.

Lemma fold_submit : forall h l, fold_left submit_event l (last_n limit h) = last_n limit (h ++ l).
Proof.
  intros h l. revert h. induction l as [|e l IH]; intro h; cbn [fold_left].
  - rewrite app_nil_r. reflexivity.
  - rewrite submit_last, IH, <- app_assoc. reflexivity.
Qed.

(** C47: after any sequence of submissions to a fresh collector, it holds the last 100000 of them in order. *)
Theorem C47_most_recent_events : forall l : list trace_event,
  fold_left submit_event l [] = last_n limit l.
Proof. intro l. pose proof (fold_submit [] l) as H. cbn [app] in H. exact H. Qed.

Corollary C47_nothing_lost_below_limit : forall l : list trace_event,
  (Z.of_nat (length l) <= 100000)%Z -> fold_left submit_event l [] = l.
Proof. intros l H. rewrite C47_most_recent_events. apply last_n_all. unfold limit. lia. Qed.

Corollary C47_size : forall l : list trace_event,
  Z.of_nat (length (fold_left submit_event l [])) = Z.min (Z.of_nat (length l)) 100000.
Proof. intro l. rewrite C47_most_recent_events, last_n_length. unfold limit. lia. Qed.

(** ** The text *)

(** What of an event is visible in the text: everything but the duration below a microsecond. *)
Definition visible (e : trace_event) : string * Z * Z * Z * Z :=
  (ev_name e, ev_ts e, ev_pid e, ev_tid e, Z.quot (ev_dur_ns e) 1000).

Fixpoint has_char (c : Ascii.ascii) (s : string) : Prop :=
  match s with EmptyString => False | String a s' => a = c \/ has_char c s' end.

Definition quote : Ascii.ascii := Ascii.ascii_of_nat 34.

Lemma append_assoc : forall a b c : string, ((a ++ b) ++ c = a ++ (b ++ c))%string.
Proof. induction a as [|x a IH]; intros b c; cbn [append]; [reflexivity|]. rewrite IH. reflexivity. Qed.

Lemma split_at : forall c a a' x x', ~ has_char c a -> ~ has_char c a' ->
  (a ++ String c x = a' ++ String c x')%string -> a = a' /\ x = x'.
Proof.
  intros c. induction a as [|k a IH]; intros [|k' a'] x x' N N' H; cbn [append] in H.
  - injection H as H. auto.
  - injection H as H _. exfalso. apply N'. left. symmetry; exact H.
  - injection H as H _. exfalso. apply N. left. exact H.
  - injection H as E H. destruct (IH a' x x') as [A B]; auto.
    + intro X. apply N. right. exact X.
    + intro X. apply N'. right. exact X.
    + subst. auto.
Qed.

Lemma digits_only : forall c u, (Ascii.nat_of_ascii c < 45)%nat -> ~ has_char c (NilEmpty.string_of_uint u).
Proof.
  intros c u H. induction u; cbn [NilEmpty.string_of_uint has_char]; [tauto| | | | | | | | | |];
    (intros [E|E]; [subst c; cbn in H; lia|tauto]).
Qed.

Lemma dec_chars : forall c z, (Ascii.nat_of_ascii c < 45)%nat -> ~ has_char c (dec z).
Proof.
  intros c z H. unfold dec, NilZero.string_of_int.
  assert (U : forall u, ~ has_char c (NilZero.string_of_uint u)).
  { intro u. destruct u; try apply (digits_only c _ H). cbn. intros [E|E]; [subst c; cbn in H; lia|exact E]. }
  destruct (Z.to_int z) as [d|d]; [apply U|]. cbn [has_char]. intros [E|E]; [subst c; cbn in H; lia|exact (U _ E)].
Qed.

Lemma dec_inj : forall a b, dec a = dec b -> a = b.
Proof.
  intros a b H. apply DecimalZ.to_int_inj.
  assert (N : forall z, Z.to_int z <> Decimal.Pos Decimal.Nil /\ Z.to_int z <> Decimal.Neg Decimal.Nil).
  { intros [|p|p]; cbn [Z.to_int]; split; try discriminate; intro E; injection E as E;
      apply (DecimalPos.Unsigned.to_uint_nonnil p E). }
  pose proof (NilZero.isi (Z.to_int a) (proj1 (N a)) (proj2 (N a))) as A.
  pose proof (NilZero.isi (Z.to_int b) (proj1 (N b)) (proj2 (N b))) as B.
  unfold dec in H. rewrite H in A. rewrite A in B. injection B; auto.
Qed.

Ltac unquote H := repeat (cbn [append] in H; rewrite ?append_assoc in H).
Ltac peel H := repeat (apply (f_equal (fun s => match s with String _ s' => s' | _ => EmptyString end)) in H; cbn beta iota in H).

Lemma format_event_inj : forall e1 e2 t1 t2,
  ~ has_char quote (ev_name e1) -> ~ has_char quote (ev_name e2) ->
  (format_event e1 ++ t1 = format_event e2 ++ t2)%string -> visible e1 = visible e2 /\ t1 = t2.
Proof.
  intros [n1 ts1 p1 i1 d1] [n2 ts2 p2 i2 d2] t1 t2 Q1 Q2 H. unfold visible. cbn [ev_name ev_ts ev_pid ev_tid ev_dur_ns] in *.
  unfold format_event, quoted, dq in H. cbn [ev_name ev_ts ev_pid ev_tid ev_dur_ns] in H.
  set (c := Z.quot d1 1000) in *. set (c' := Z.quot d2 1000) in *. clearbody c c'.
  assert (K : forall a a' x x', (dec a ++ String "," x = dec a' ++ String "," x')%string -> a = a' /\ x = x').
  { intros a a' x x' E. apply split_at in E; [|apply dec_chars; cbn; lia|apply dec_chars; cbn; lia].
    destruct E as [E X]. apply dec_inj in E. auto. }
  cbn [append] in H. rewrite ?append_assoc in H. cbn [append] in H. rewrite ?append_assoc in H. cbn [append] in H.
  injection H as H.
  apply (split_at quote) in H; [|exact Q1|exact Q2]. destruct H as [-> H].
  rewrite ?append_assoc in H. cbn [append] in H.
  injection H as H.
  apply K in H. destruct H as [-> H]. rewrite ?append_assoc in H. cbn [append] in H. injection H as H.
  apply K in H. destruct H as [-> H]. rewrite ?append_assoc in H. cbn [append] in H. injection H as H.
  apply K in H. destruct H as [-> H]. rewrite ?append_assoc in H. cbn [append] in H. injection H as H.
  apply (split_at " ") in H; [|apply dec_chars; cbn; lia|apply dec_chars; cbn; lia].
  destruct H as [E H]. apply dec_inj in E. subst c'. injection H as H. auto.
Qed.
Definition joined (l : list trace_event) : string := join ("," ++ nl ++ "    ") (map format_event l).

Lemma joined_cons : forall e l, joined (e :: l) =
  (format_event e ++ match l with [] => "" | _ => "," ++ nl ++ "    " ++ joined l end)%string.
Proof.
  intros e [|e' l]; unfold joined; cbn [map join].
  - generalize (format_event e). induction s as [|c s IH]; [reflexivity|]. cbn [append]. rewrite <- IH. reflexivity.
  - reflexivity.
Qed.

Lemma joined_inj : forall T, (exists T', T = String (Ascii.ascii_of_nat 10) T') -> forall l1 l2,
  (forall e, In e l1 \/ In e l2 -> ~ has_char quote (ev_name e)) ->
  (joined l1 ++ T = joined l2 ++ T)%string -> map visible l1 = map visible l2.
Proof.
  intros T [T' ->]. induction l1 as [|e1 l1 IH]; intros [|e2 l2] Q H.
  - reflexivity.
  - exfalso. rewrite joined_cons in H. cbn in H. discriminate.
  - exfalso. rewrite joined_cons in H. cbn in H. discriminate.
  - rewrite !joined_cons, !append_assoc in H. apply format_event_inj in H; [|apply Q; left; left; reflexivity|apply Q; right; left; reflexivity].
    destruct H as [V H]. cbn [map]. rewrite V. f_equal.
    destruct l1 as [|a l1], l2 as [|b l2].
    + reflexivity.
    + exfalso. cbn in H. discriminate.
    + exfalso. cbn in H. discriminate.
    + apply IH; [intros e [He|He]; apply Q; [left|right]; right; exact He|].
      cbn [append nl] in H. set (x := joined (a :: l1)) in *. set (y := joined (b :: l2)) in *. clearbody x y.
      injection H as H. exact H.
Qed.

(** C47: the text returned by get_trace_json lists exactly the retained events, in order: two histories (of events
    whose names contain no double quote) give the same text only if their last 100000 events agree one by one. *)
Theorem C47_text_lists_events : forall l1 l2 : list trace_event,
  (forall e, In e l1 \/ In e l2 -> ~ has_char quote (ev_name e)) ->
  get_trace_json (fold_left submit_event l1 []) = get_trace_json (fold_left submit_event l2 []) ->
  map visible (last_n limit l1) = map visible (last_n limit l2).
Proof.
  intros l1 l2 Q H. rewrite !C47_most_recent_events in H. unfold get_trace_json in H.
  change (join ("," ++ nl ++ "    ") (map format_event ?l)) with (joined l) in H.
  set (x := joined (last_n limit l1)) in *. set (y := joined (last_n limit l2)) in *.
  cbn [append nl quoted dq] in H.
  assert (E : (x ++ String (Ascii.ascii_of_nat 10) ("  ]," ++ nl ++ "  " ++ quoted "displayTimeUnit" ++ ": " ++ quoted "ns" ++ nl ++ "}" ++ nl)
             = y ++ String (Ascii.ascii_of_nat 10) ("  ]," ++ nl ++ "  " ++ quoted "displayTimeUnit" ++ ": " ++ quoted "ns" ++ nl ++ "}" ++ nl))%string).
  { clearbody x y. injection H as H. exact H. }
  revert E. unfold x, y. apply joined_inj.
  - eexists. reflexivity.
  - assert (S : forall l (e : trace_event), In e (last_n limit l) -> In e l).
    { intros l e He. unfold last_n in He. rewrite <- (firstn_skipn (length l - limit) l). apply in_or_app. right. exact He. }
    intros e [He|He]; apply Q; [left|right]; apply S; exact He.
Qed.

(** ** Scopes *)
(** A scope that ends normally produces one event with its name, its start in microseconds and its duration in
    nanoseconds; one that ends while an exception propagates produces none. *)
Theorem C47_scope_event : forall name start finish uncaught pid tid,
  (uncaught = 0 <-> exists e, scope_event name start finish uncaught pid tid = Some e) /\
  forall e, scope_event name start finish uncaught pid tid = Some e ->
    ev_name e = name /\ ev_dur_ns e = (finish - start)%Z /\ ev_pid e = pid /\ ev_tid e = tid /\
    ((0 <= start)%Z -> (1000 * ev_ts e <= start < 1000 * ev_ts e + 1000)%Z).
Proof.
  intros name start finish uncaught pid tid. unfold scope_event. destruct uncaught as [|u]; cbn [Nat.ltb Nat.leb].
  - split; [split; eauto|]. intros e H. injection H as <-. cbn [ev_name ev_ts ev_pid ev_tid ev_dur_ns].
    repeat split; auto.
    + pose proof (Z.mul_quot_le start 1000 H ltac:(lia)). lia.
    + pose proof (Z.mul_succ_quot_gt start 1000 H ltac:(lia)). lia.
  - split; [split; [discriminate|intros [e H]; discriminate]|]. discriminate.
Qed.

(** ** Threads (C48) *)
Lemma of_thread_app1 : forall t h i e, of_thread t (h ++ [(i, e)]) = of_thread t h ++ (if i =? t then [e] else []).
Proof.
  intros. unfold of_thread. rewrite filter_app, map_app. cbn [filter fst]. destruct (i =? t); reflexivity.
Qed.

(** What a thread has still to put into the deque. *)
Definition pending (t : thread) : list trace_event :=
  (match th_pc t with AtPush e => [e] | _ => [] end) ++ submissions (th_todo t).

Definition in_submit (p : pc) : bool := match p with AtPush _ | AtTrim | AtUnlock => true | _ => false end.

Definition inv (prog : nat -> list op) (h : list (nat * trace_event)) (s : shared) : Prop :=
  (forall i, in_submit (th_pc (sh_threads s i)) = true <-> sh_owner s = Some i) /\
  (forall i, submissions (prog i) = of_thread i h ++ pending (sh_threads s i)) /\
  ((exists i, th_pc (sh_threads s i) = AtTrim /\ trim (sh_events s) = last_n limit (map snd h)) \/
   (forall i, th_pc (sh_threads s i) <> AtTrim) /\ sh_events s = last_n limit (map snd h)).

Lemma set_same : forall i t f, set_thread i t f i = t.
Proof. intros. unfold set_thread. rewrite Nat.eqb_refl. reflexivity. Qed.
Lemma set_other : forall i j t f, j <> i -> set_thread i t f j = f j.
Proof. intros. unfold set_thread. destruct (Nat.eqb_spec j i); [contradiction|reflexivity]. Qed.

Ltac at_thread i j := destruct (Nat.eq_dec j i) as [->|?];
  [rewrite ?set_same in *|rewrite ?set_other in * by assumption]; cbn [th_pc th_todo] in *.

Lemma inv_reachable : forall prog s, reachable prog s -> exists h, inv prog h s.
Proof.
  intros prog s R. induction R as [|s s' i R (h & IO & IP & IE) ST].
  { exists []. split; [|split].
    - intro i. cbn. split; discriminate.
    - intro i. reflexivity.
    - right. split; [discriminate|reflexivity]. }
  pose proof (IO i) as IOi. pose proof (IP i) as IPi.
  destruct ST as [s e l HT HO|s e l HT|s l HT|s l HT|s l HT|s l HT]; rewrite HT in IOi, IPi; cbn [th_pc in_submit] in IOi.
  - (* lock *)
    exists h. split; [|split]; cbn [sh_owner sh_events sh_threads].
    + intro j. at_thread i j.
      * cbn; tauto.
      * rewrite IO, HO. split; [discriminate|]. intro E; injection E as ->; contradiction.
    + intro j. at_thread i j; [|apply IP]. rewrite IPi. reflexivity.
    + right. destruct IE as [(k & HK & _)|[NK E]].
      * exfalso. assert (O : sh_owner s = Some k) by (apply IO; rewrite HK; reflexivity). congruence.
      * split; [|exact E]. intro j. at_thread i j; [discriminate|apply NK].
  - (* push *)
    assert (OI : sh_owner s = Some i) by (apply IOi; reflexivity).
    assert (ALONE : forall j, j <> i -> in_submit (th_pc (sh_threads s j)) = false).
    { intros j Hj. destruct (in_submit (th_pc (sh_threads s j))) eqn:E; [|reflexivity].
      apply IO in E. congruence. }
    exists (h ++ [(i, e)]). split; [|split]; cbn [sh_owner sh_events sh_threads].
    + intro j. at_thread i j; [cbn; tauto|]. apply IO.
    + intro j. rewrite of_thread_app1. at_thread i j.
      * rewrite Nat.eqb_refl, IPi. unfold pending; cbn [th_pc th_todo app]. rewrite <- app_assoc. reflexivity.
      * destruct (Nat.eqb_spec i j); [congruence|]. rewrite app_nil_r. apply IP.
    + left. exists i. rewrite set_same. split; [reflexivity|].
      destruct IE as [(k & HK & _)|[NK E]].
      * exfalso. destruct (Nat.eq_dec k i) as [->|Hk]; [rewrite HT in HK; discriminate|].
        pose proof (ALONE k Hk) as A. rewrite HK in A. discriminate.
      * rewrite E, map_app. apply submit_last.
  - (* trim *)
    assert (OI : sh_owner s = Some i) by (apply IOi; reflexivity).
    exists h. split; [|split]; cbn [sh_owner sh_events sh_threads].
    + intro j. at_thread i j; [cbn; tauto|]. apply IO.
    + intro j. at_thread i j; [|apply IP]. rewrite IPi. reflexivity.
    + right. split.
      * intro j. at_thread i j; [discriminate|]. intro E.
        assert (O : sh_owner s = Some j) by (apply IO; rewrite E; reflexivity). congruence.
      * destruct IE as [(k & _ & E)|[NK _]]; [exact E|]. exfalso. apply (NK i). rewrite HT. reflexivity.
  - (* unlock *)
    assert (OI : sh_owner s = Some i) by (apply IOi; reflexivity).
    exists h. split; [|split]; cbn [sh_owner sh_events sh_threads].
    + intro j. at_thread i j.
      * cbn. split; discriminate.
      * rewrite IO, OI. split; [intro E; injection E as ->; contradiction|discriminate].
    + intro j. at_thread i j; [|apply IP]. rewrite IPi. reflexivity.
    + destruct IE as [(k & HK & E)|[NK E]].
      * left. exists k. at_thread i k; [rewrite HT in HK; discriminate|]. auto.
      * right. split; [|exact E]. intro j. at_thread i j; [discriminate|apply NK].
  - (* begin read *)
    exists h. split; [|split]; cbn [sh_owner sh_events sh_threads].
    + intro j. at_thread i j; [exact IOi|]. apply IO.
    + intro j. at_thread i j; [|apply IP]. rewrite IPi. reflexivity.
    + destruct IE as [(k & HK & E)|[NK E]].
      * left. exists k. at_thread i k; [rewrite HT in HK; discriminate|]. auto.
      * right. split; [|exact E]. intro j. at_thread i j; [discriminate|apply NK].
  - (* end read *)
    exists h. split; [|split]; cbn [sh_owner sh_events sh_threads].
    + intro j. at_thread i j; [exact IOi|]. apply IO.
    + intro j. at_thread i j; [|apply IP]. rewrite IPi. reflexivity.
    + destruct IE as [(k & HK & E)|[NK E]].
      * left. exists k. at_thread i k; [rewrite HT in HK; discriminate|]. auto.
      * right. split; [|exact E]. intro j. at_thread i j; [discriminate|apply NK].
Qed.

(** C48: for every number of threads, every program of each thread and every schedule, whenever no call of
    submit_event is in progress the deque holds the last 100000 elements of an interleaving of (a prefix of) the
    threads' submissions which keeps each thread's own order. *)
Theorem C48_every_schedule : forall prog s, reachable prog s -> sh_owner s = None ->
  exists h : list (nat * trace_event),
    sh_events s = last_n limit (map snd h) /\
    forall i, submissions (prog i) = of_thread i h ++ submissions (th_todo (sh_threads s i)).
Proof.
  intros prog s R O. destruct (inv_reachable _ _ R) as (h & IO & IP & IE). exists h. split.
  - destruct IE as [(k & HK & _)|[_ E]]; [|exact E]. exfalso.
    assert (sh_owner s = Some k) by (apply IO; rewrite HK; reflexivity). congruence.
  - intro i. rewrite (IP i). f_equal. unfold pending.
    destruct (th_pc (sh_threads s i)) as [|e| | |] eqn:E; try reflexivity.
    exfalso. assert (sh_owner s = Some i) by (apply IO; rewrite E; reflexivity). congruence.
Qed.

(** When all threads are done every submitted event is accounted for: none lost, duplicated or reordered within a
    thread before the last 100000 are cut off. *)
Theorem C48_all_done : forall prog s, reachable prog s ->
  (forall i, sh_threads s i = MkThread Idle []) ->
  exists h : list (nat * trace_event),
    sh_events s = last_n limit (map snd h) /\ forall i, of_thread i h = submissions (prog i).
Proof.
  intros prog s R D. destruct (inv_reachable _ _ R) as (h & IO & IP & IE). exists h. split.
  - destruct IE as [(k & HK & _)|[_ E]]; [|exact E]. exfalso. rewrite D in HK. discriminate.
  - intro i. rewrite (IP i), D. unfold pending; cbn. rewrite app_nil_r. reflexivity.
Qed.

(** C48: at most one thread is inside submit_event at any time, so submissions never race with each other. *)
Theorem C48_mutual_exclusion : forall prog s i j, reachable prog s ->
  writing (th_pc (sh_threads s i)) -> writing (th_pc (sh_threads s j)) -> i = j.
Proof.
  intros prog s i j R Wi Wj. destruct (inv_reachable _ _ R) as (h & IO & _).
  assert (sh_owner s = Some i) by (apply IO; destruct (th_pc (sh_threads s i)); cbn in *; tauto || reflexivity).
  assert (sh_owner s = Some j) by (apply IO; destruct (th_pc (sh_threads s j)); cbn in *; tauto || reflexivity).
  congruence.
Qed.

(** C48: if no thread ever asks for the JSON, there is no data race. *)
Theorem C48_submissions_race_free : forall prog s, reachable prog s ->
  (forall i, ~ In Dump (prog i)) -> ~ race s.
Proof.
  intros prog s R ND (i & j & NE & W & A).
  assert (NR : forall k, th_pc (sh_threads s k) <> AtRead /\ ~ In Dump (th_todo (sh_threads s k))).
  { clear - R ND. induction R as [|s s' i R IH ST]; intro k; [split; [discriminate|apply ND]|].
    pose proof (IH i) as IHi. pose proof (IH k) as IHk.
    destruct ST as [s e l HT HO|s e l HT|s l HT|s l HT|s l HT|s l HT]; rewrite HT in IHi; cbn [sh_threads th_pc th_todo] in *;
      at_thread i k; try exact IHk; destruct IHi as [A B]; split; try discriminate; auto; try (cbn in B; tauto). }
  apply NE. apply (C48_mutual_exclusion prog s i j R W).
  destruct (NR j) as [B _]. destruct (th_pc (sh_threads s j)); cbn in *; tauto.
Qed.

(** C48 finding: get_trace_json takes no lock. As soon as one thread submits and another asks for the JSON, some
    schedule reaches a data race on the deque. *)
Theorem C48_reading_races : forall prog i j e li lj, i <> j ->
  prog i = Submit e :: li -> prog j = Dump :: lj -> exists s, reachable prog s /\ race s.
Proof.
  intros prog i j e li lj NE Ei Ej.
  eexists. split.
  - eapply reach_step with (i := j); [eapply reach_step with (i := i); [apply reach_init|]|].
    + eapply step_lock; cbn [sh_threads sh_owner]; [rewrite Ei; reflexivity|reflexivity].
    + eapply step_begin_read. cbn [sh_threads]. rewrite set_other by auto. rewrite Ej. reflexivity.
  - exists i, j. split; [exact NE|]. cbn [sh_threads]. rewrite set_same, set_other, set_same by auto. cbn. auto.
Qed.

(** C48: no deadlock: as long as some thread has work left, some thread can take a step. *)
Theorem C48_no_deadlock : forall prog s, reachable prog s ->
  (exists i, sh_threads s i <> MkThread Idle []) -> exists i s', step i s s'.
Proof.
  intros prog s R (i & H). destruct (inv_reachable _ _ R) as (h & IO & _).
  assert (GO : forall k l, sh_threads s k = l -> in_submit (th_pc l) = true -> exists s', step k s s').
  { intros k [p l] E I. destruct p; try discriminate; eexists.
    - eapply step_push; exact E.
    - eapply step_trim; exact E.
    - eapply step_unlock; exact E. }
  destruct (sh_owner s) as [k|] eqn:O.
  - exists k. apply (GO k _ eq_refl). apply IO. reflexivity.
  - destruct (sh_threads s i) as [p l] eqn:E. destruct p.
    + destruct l as [|[e|] l]; [contradiction| |].
      * exists i. eexists. eapply step_lock; eauto.
      * exists i. eexists. eapply step_begin_read; eauto.
    + exists i. apply (GO i _ E). reflexivity.
    + exists i. apply (GO i _ E). reflexivity.
    + exists i. apply (GO i _ E). reflexivity.
    + exists i. eexists. eapply step_end_read; eauto.
Qed.

(** ** Examples *)
Local Open Scope string_scope.
Definition ev (n : string) (t : Z) : trace_event := MkEvent n t 7 8 (1000 * t).

(** One uninterrupted call of submit_event. *)
Lemma submit_run : forall prog i evs d th e l, th i = MkThread Idle (Submit e :: l) ->
  reachable prog (MkShared None evs d th) ->
  exists th', reachable prog (MkShared None (submit_event evs e) d th') /\ th' i = MkThread Idle l /\
    forall j, j <> i -> th' j = th j.
Proof.
  intros prog i evs d th e l H R.
  pose proof (step_lock i (MkShared None evs d th) e l H eq_refl) as S1. cbn [sh_events sh_dumps sh_threads] in S1.
  pose proof (reach_step _ _ _ _ R S1) as R1.
  match type of S1 with step _ _ ?s => pose proof (step_push i s e l (set_same _ _ _)) as S2 end.
  cbn [sh_owner sh_events sh_dumps sh_threads] in S2. pose proof (reach_step _ _ _ _ R1 S2) as R2.
  match type of S2 with step _ _ ?s => pose proof (step_trim i s l (set_same _ _ _)) as S3 end.
  cbn [sh_owner sh_events sh_dumps sh_threads] in S3. pose proof (reach_step _ _ _ _ R2 S3) as R3.
  match type of S3 with step _ _ ?s => pose proof (step_unlock i s l (set_same _ _ _)) as S4 end.
  cbn [sh_owner sh_events sh_dumps sh_threads] in S4. pose proof (reach_step _ _ _ _ R3 S4) as R4.
  eexists. split; [exact R4|]. split; [apply set_same|]. intros j Hj. rewrite !set_other by exact Hj. reflexivity.
Qed.

Example ex_two_threads : exists s,
  reachable (fun i => match i with 0 => [Submit (ev "a" 1); Submit (ev "b" 2)] | 1 => [Submit (ev "c" 3)] | _ => [] end) s /\
  sh_owner s = None /\ sh_events s = [ev "a" 1; ev "c" 3; ev "b" 2].
Proof.
  set (prog := fun i : nat => _). pose proof (reach_init prog) as R.
  destruct (submit_run prog 0 _ _ _ (ev "a" 1) [Submit (ev "b" 2)] eq_refl R) as (t1 & R1 & A1 & B1).
  assert (H1 : t1 1 = MkThread Idle [Submit (ev "c" 3)]) by (rewrite B1 by discriminate; reflexivity).
  destruct (submit_run prog 1 _ _ t1 (ev "c" 3) [] H1 R1) as (t2 & R2 & A2 & B2).
  assert (H2 : t2 0 = MkThread Idle [Submit (ev "b" 2)]) by (rewrite B2 by discriminate; exact A1).
  destruct (submit_run prog 0 _ _ t2 (ev "b" 2) [] H2 R2) as (t3 & R3 & A3 & B3).
  eexists. split; [exact R3|]. split; reflexivity.
Qed.

Example ex_format : format_event (MkEvent "Solve" 12 3 4 5999) =
  "{ ""name"": ""Solve"", ""cat"": """", ""ph"": ""X"", ""ts"": 12, ""pid"": 3, ""tid"": 4, ""dur"": 5 }".
Proof. reflexivity. Qed.

(** Durations are cut to whole microseconds in the text. *)
Example ex_text_is_coarse : format_event (MkEvent "s" 1 1 1 999) = format_event (MkEvent "s" 1 1 1 0).
Proof. reflexivity. Qed.
