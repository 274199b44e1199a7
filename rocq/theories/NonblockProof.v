(** The table of outstanding operations. *)
From Verif Require Import Base BaseLemmas Nonblock NonblockSpec.

Lemma rd_some {A} (l : list A) i x : nth_error l i = Some x -> rd l i = Ok x.
Proof. intros E. unfold rd. rewrite E. auto. Qed.
Lemma wr_lt {A} (l : list A) i (x : A) : i < length l -> wr l i x = Ok (upd l i x).
Proof. intros E. unfold wr. destruct (Nat.ltb_spec i (length l)); auto; lia. Qed.

Section Proof.
Context {P : Type}.
Variable INT_MAX : nat.

(** Cells that are live. *)
Definition live (c : @cell P) : bool := match c with Live _ => true | _ => false end.
Definition live_count (l : list (@cell P)) : nat := length (filter live l).

Record table_ok (t : table P) (total : nat) : Prop := {
  tk_len : length (dict t) = nmax t;
  tk_n : nn t <= nmax t;
  tk_max : nmax t <= nn t + nn t / 2 + 1;
  tk_total : nn t <= total;
  tk_count : count t = live_count (dict t);
  tk_free : forall i, nn t <= i -> nth_error (dict t) i <> None -> nth_error (dict t) i = Some Uninit;
  tk_empty : count t = 0 -> t = table0 }.

Lemma live_app l1 l2 : live_count (l1 ++ l2) = live_count l1 + live_count l2.
Proof. unfold live_count. rewrite filter_app, app_length. auto. Qed.
Lemma live_uninit n : live_count (repeat Uninit n) = 0.
Proof. induction n; cbn; auto. Qed.
Lemma live_upd l : forall i c c', nth_error l i = Some c ->
  live_count (upd l i c') + (if live c then 1 else 0) = live_count l + (if live c' then 1 else 0).
Proof.
  unfold live_count. induction l as [|x l IH]; intros [|i] c c' E; try discriminate; cbn in E.
  - injection E as ->. cbn [upd filter]. destruct (live c), (live c'); cbn [length]; lia.
  - specialize (IH i c c' E). cbn [upd filter]. destruct (live x); cbn [length]; lia.
Qed.

Lemma table0_ok total : table_ok (@table0 P) total.
Proof.
  constructor; cbn; auto; try lia. intros i _ H. destruct i; cbn in H; congruence.
Qed.

Lemma enter_ok t total op : table_ok t total -> total + total / 2 + 1 <= INT_MAX -> total < INT_MAX ->
  exists t', igs_enter INT_MAX t op = Ok (t', Z.of_nat (nn t)) /\ table_ok t' (S total) /\
    nn t' = S (nn t) /\ count t' = S (count t) /\
    nth_error (dict t') (nn t) = Some (Live op) /\
    forall i, i < nn t -> nth_error (dict t') i = nth_error (dict t) i.
Proof.
  intros [Hl Hn Hm Ht Hc Hf He] B1 B2. unfold igs_enter.
  assert (Hgrow : exists t1, (if nn t =? nmax t then
          m <- int INT_MAX (nmax t + (nmax t / 2 + 1)) ;;
          Ok (Table (dict t ++ repeat Uninit (m - length (dict t))) m (nn t) (count t))
        else Ok t) = Ok t1 /\ length (dict t1) = nmax t1 /\ nn t1 = nn t /\ count t1 = count t /\ nn t < nmax t1 /\
        nmax t1 <= S (nn t) + S (nn t) / 2 + 1 /\ live_count (dict t1) = count t /\
        (forall i, nn t <= i -> nth_error (dict t1) i <> None -> nth_error (dict t1) i = Some Uninit) /\
        forall i, i < nn t -> nth_error (dict t1) i = nth_error (dict t) i).
  { destruct (Nat.eqb_spec (nn t) (nmax t)) as [E|E].
    - assert (Bd : nmax t / 2 <= total / 2) by (apply Nat.div_le_mono; lia).
      unfold int. destruct (Nat.leb_spec (nmax t + (nmax t / 2 + 1)) INT_MAX); [|lia]. cbn [bind].
      eexists. split; [reflexivity|]. cbn [dict nmax nn count]. split; [rewrite app_length, repeat_length; lia|].
      do 2 (split; auto). split; [lia|]. split.
      { pose proof (Nat.div_le_mono (nmax t) (S (nn t)) 2 ltac:(lia) ltac:(lia)). lia. }
      split; [rewrite live_app, live_uninit; lia|]. split.
      + intros i Hi Hne. rewrite nth_error_app2 in * by lia. set (j := i - length (dict t)) in *.
        destruct (nth_error (repeat Uninit _) j) as [c|] eqn:Ej; [|congruence]. apply nth_error_In, repeat_spec in Ej. congruence.
      + intros i Hi. apply nth_error_app1. lia.
    - exists t. do 4 (split; auto). split; [lia|]. split; [|auto].
      pose proof (Nat.div_le_mono (nn t) (S (nn t)) 2 ltac:(lia) ltac:(lia)). lia. }
  destruct Hgrow as (t1 & -> & G1 & G2 & G3 & G4 & G5 & G6 & G7 & G8). cbn [bind].
  rewrite G2, G3, wr_lt by lia. cbn [bind].
  assert (Hcount : count t <= nn t).
  { rewrite Hc. unfold live_count. clear -Hf. rename Hf into H. revert H. generalize (dict t) as l, (nn t) as n.
    induction l as [|c l IH]; intros n H; cbn [filter length]; [lia|]. destruct n as [|n].
    - assert (c = Uninit) as ->. { specialize (H 0 ltac:(lia)). cbn in H. specialize (H ltac:(discriminate)). congruence. }
      cbn [live]. apply (IH 0). intros i Hi Hne. apply (H (S i)); auto; lia.
    - assert (length (filter live l) <= n). { apply IH. intros i Hi Hne. apply (H (S i)); auto; lia. }
      destruct (live c); cbn [length]; lia. }
  unfold int. destruct (Nat.leb_spec (S (nn t)) INT_MAX); [|lia]. destruct (Nat.leb_spec (S (count t)) INT_MAX); [|lia]. cbn [bind].
  eexists. split; [reflexivity|]. cbn [nn count dict]. split; [|split; [auto|split; [auto|split]]].
  - constructor; cbn [dict nmax nn count]; try (rewrite ?upd_length; lia).
    + destruct (nth_error_lt_Some (dict t1) (nn t)) as [c Ec]; [lia|].
      pose proof (live_upd (dict t1) (nn t) c (Live op) Ec) as U. cbn [live] in U.
      specialize (G7 (nn t) ltac:(lia) ltac:(congruence)). rewrite Ec in G7. injection G7 as ->. cbn in U. lia.
    + intros i Hi. rewrite nth_error_upd_ne by lia. apply G7. lia.
  - apply nth_error_upd_eq. lia.
  - intros i Hi. rewrite nth_error_upd_ne by lia. auto.
Qed.

Lemma wait_ok t total i op : table_ok t total -> i < nn t -> nth_error (dict t) i = Some (Live op) ->
  exists t', gs_wait_table t (Z.of_nat i) = Ok (t', Some op) /\ table_ok t' total /\
    ((count t = 1 /\ t' = table0) \/ (count t <> 1 /\ count t' = count t - 1 /\ nn t' = nn t /\ 
       forall j, j <> i -> nth_error (dict t') j = nth_error (dict t) j)).
Proof.
  intros [Hl Hn Hm Ht Hc Hf He] Hi E. unfold gs_wait_table.
  destruct (Z.ltb_spec (Z.of_nat i) (Z.of_nat (nn t))); [|lia]. destruct (Z.ltb_spec (Z.of_nat i) 0); [lia|].
  rewrite Nat2Z.id, (rd_some _ _ _ E). cbn [bind]. rewrite wr_lt by lia. cbn [bind count].
  pose proof (live_upd (dict t) i _ Null E) as U. cbn [live] in U.
  eexists. split; [reflexivity|]. destruct (Nat.eqb_spec (count t - 1) 0) as [C|C].
  - split; [apply table0_ok|]. left. split; auto. lia.
  - split.
    + constructor; cbn [dict nmax nn count]; try (rewrite ?upd_length; lia).
      intros j Hj. rewrite nth_error_upd_ne by lia. auto.
    + right. cbn [count nn dict]. do 3 (split; try lia). intros j Hj. apply nth_error_upd_ne. auto.
Qed.

(** ** Histories *)
(** [ops]: the operations issued so far, [hd]: the handle of each, [w]: the ones waited for. *)
Record hist_ok (t : table P) (ops : list P) (hd : list Z) (w : list nat) : Prop := {
  hk_t : table_ok t (length ops);
  hk_hd : length hd = length ops;
  hk_out : forall k op, nth_error ops k = Some op -> ~ In k w ->
     exists i, nth_error hd k = Some (Z.of_nat i) /\ i < nn t /\ nth_error (dict t) i = Some (Live op);
  hk_inj : forall k1 k2 h, k1 < length ops -> k2 < length ops -> ~ In k1 w -> ~ In k2 w ->
     nth_error hd k1 = Some h -> nth_error hd k2 = Some h -> k1 = k2;
  hk_cnt : count t + length w = length ops;
  hk_w : NoDup w /\ forall k, In k w -> k < length ops }.

Lemma hist_count0 t ops hd w : hist_ok t ops hd w -> count t = 0 -> forall k, k < length ops -> In k w.
Proof.
  intros [Ht Hh Ho Hi Hc [ND Hw]] C k Hk.
  destruct (in_dec Nat.eq_dec k w) as [|N]; auto. exfalso.
  destruct (nth_error_lt_Some ops k Hk) as [op Eop]. destruct (Ho k op Eop N) as (i & _ & Hin & _).
  pose proof (tk_empty _ _ Ht C) as ->. cbn in Hin. lia.
Qed.

Theorem run_calls_ok cs : forall t ops hd w, hist_ok t ops hd w -> proper (length ops) w cs ->
  (let n := length ops + length (issued_ops cs) in n + n / 2 + 1 <= INT_MAX) ->
  exists t', run_calls INT_MAX t hd cs = Ok (t', map (nth_error (ops ++ issued_ops cs)) (waits cs)) /\
    (length w + length (waits cs) = length ops + length (issued_ops cs) -> t' = table0).
Proof.
  induction cs as [|[op|k] cs IH]; intros t ops hd w H Hp HB; cbn [run_calls issued_ops waits flat_map map app proper] in *.
  - exists t. split; auto. intros E. apply (tk_empty _ _ (hk_t _ _ _ _ H)). pose proof (hk_cnt _ _ _ _ H). cbn in E. lia.
  - fold (issued_ops cs) in *. fold (waits cs) in *. cbn [length] in HB. destruct H as [Ht Hh Ho Hi Hc [ND Hw]].
    assert (B1 : length ops + length ops / 2 + 1 <= INT_MAX).
    { pose proof (Nat.div_le_mono (length ops) (length ops + S (length (issued_ops cs))) 2 ltac:(lia) ltac:(lia)). lia. }
    destruct (enter_ok t (length ops) op Ht) as (t1 & E & T1 & N1 & C1 & D1 & D2); [lia| |].
    { pose proof (Nat.div_le_mono 0 (length ops + S (length (issued_ops cs))) 2 ltac:(lia) ltac:(lia)). lia. }
    rewrite E. cbn [bind fst snd].
    destruct (IH t1 (ops ++ [op]) (hd ++ [Z.of_nat (nn t)]) w) as (t' & E' & F').
    + constructor; rewrite ?app_length; cbn [length]; try lia.
      * replace (length ops + 1) with (S (length ops)) by lia. auto.
      * intros j o Ej Nj. destruct (Nat.lt_ge_cases j (length ops)) as [L|L].
        -- rewrite nth_error_app1 in Ej by auto. destruct (Ho j o Ej Nj) as (i & A & B & C). exists i.
           rewrite nth_error_app1 by lia. split; auto. split; [lia|]. rewrite D2 by auto. auto.
        -- assert (j = length ops). { apply nth_error_Some_lt in Ej. rewrite app_length in Ej. cbn in Ej. lia. } subst j.
           rewrite nth_error_app2, Nat.sub_diag in Ej by lia. cbn in Ej. injection Ej as <-. exists (nn t).
           rewrite nth_error_app2 by lia. rewrite Hh, Nat.sub_diag. split; auto. split; [lia|auto].
      * intros k1 k2 h L1 L2 N1' N2' E1 E2.
        assert (Lt : forall k, k < length ops -> ~ In k w -> forall h, nth_error (hd ++ [Z.of_nat (nn t)]) k = Some h -> (h < Z.of_nat (nn t))%Z).
        { intros k Lk Nk h0 Eh. rewrite nth_error_app1 in Eh by lia. destruct (nth_error_lt_Some ops k Lk) as [o Eo].
          destruct (Ho k o Eo Nk) as (i & A & B & _). rewrite A in Eh. injection Eh as <-. lia. }
        assert (La : nth_error (hd ++ [Z.of_nat (nn t)]) (length ops) = Some (Z.of_nat (nn t))) by (rewrite nth_error_app2, Hh, Nat.sub_diag by lia; auto).
        destruct (Nat.eq_dec k1 (length ops)) as [->|], (Nat.eq_dec k2 (length ops)) as [->|]; auto.
        -- specialize (Lt k2 ltac:(lia) N2' _ E2). rewrite La in E1. injection E1 as <-. lia.
        -- specialize (Lt k1 ltac:(lia) N1' _ E1). rewrite La in E2. injection E2 as <-. lia.
        -- rewrite nth_error_app1 in E1, E2 by lia. apply (Hi k1 k2 h); auto; lia.
      * split; auto. intros k Hk. specialize (Hw k Hk). lia.
    + rewrite app_length. cbn [length]. replace (length ops + 1) with (S (length ops)) by lia. auto.
    + rewrite app_length. cbn [length]. replace (length ops + 1 + length (issued_ops cs)) with (length ops + S (length (issued_ops cs))) by lia. auto.
    + exists t'. rewrite E'. rewrite <- app_assoc. cbn [app]. split; auto. intros L. apply F'. rewrite app_length. cbn [length] in *. lia.
  - fold (issued_ops cs) in *. fold (waits cs) in *. destruct Hp as (Lk & Nk & Hp). pose proof H as [Ht Hh Ho Hi Hc [ND Hw]].
    destruct (nth_error_lt_Some ops k Lk) as [op Eop]. destruct (Ho k op Eop Nk) as (i & Eh & Hin & El).
    rewrite (rd_some _ _ _ Eh). cbn [bind].
    destruct (wait_ok t (length ops) i op Ht Hin El) as (t1 & E & T1 & Hcase). rewrite E. cbn [bind fst snd].
    assert (H1 : hist_ok t1 ops hd (k :: w)).
    { constructor; auto.
      - intros j o Ej Nj. assert (Nj' : j <> k /\ ~ In j w) by (split; intros X; apply Nj; [left; auto|right; auto]). destruct Nj' as [Njk Njw].
        destruct (Ho j o Ej Njw) as (i' & A & B & C). exists i'. split; auto.
        assert (Hne : i' <> i). { intros ->. apply Njk. apply (Hi j k (Z.of_nat i)); auto. apply nth_error_Some_lt in Ej. auto. }
        destruct Hcase as [[C1 ->]|(C1 & C2 & C3 & C4)]; [|rewrite C3; split; auto; rewrite C4; auto].
        exfalso. (* two live cells, but count is 1 *)
        pose proof (live_upd (dict t) i _ Null El) as U1. cbn in U1.
        assert (El' : nth_error (upd (dict t) i Null) i' = Some (Live o)) by (rewrite nth_error_upd_ne; auto).
        pose proof (live_upd (upd (dict t) i Null) i' _ Null El') as U2. cbn in U2. pose proof (tk_count _ _ Ht). lia.
      - intros k1 k2 h L1 L2 N1 N2. apply Hi; auto; intros X; [apply N1|apply N2]; right; auto.
      - cbn [length]. destruct Hcase as [[C1 ->]|(C1 & C2 & C3 & C4)]; [cbn; lia|].
        assert (count t <> 0). { intros C0. pose proof (tk_empty _ _ Ht C0) as ->. cbn in Hin. lia. } lia.
      - split; [constructor; auto|]. intros j [<-|Hj]; auto. }
    destruct (IH t1 ops hd (k :: w) H1 Hp HB) as (t' & E' & F'). exists t'. rewrite E'. cbn [bind fst snd].
    split; [|intros L; apply F'; cbn [length] in *; lia]. do 2 f_equal. f_equal.
    rewrite nth_error_app1 by auto. auto.
Qed.
End Proof.
