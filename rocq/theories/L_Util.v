(** Correctness of partition_by_bfs (model in M_Util). *)
From Coq Require Import ZifyBool ZifyNat.
From Verif Require Import Base Lib Lib2 Lib3 Spec Check M_Util P_Util.

(** * Lists of parts *)

Lemma concat_upd_perm (set : list (list nat)) i x : i < length set ->
  Permutation (concat (upd set i (set.[i] ++ [x]))) (x :: concat set).
Proof.
  revert i. induction set as [|h t IH]; intros [|i] Hi; simpl in *; try lia.
  - rewrite <- app_assoc. simpl. symmetry. apply Permutation_middle.
  - change ((h :: t).[S i]) with (t.[i]). rewrite IH by lia. symmetry. apply Permutation_middle.
Qed.

Lemma concat_upd_app (set : list (list nat)) i l : i < length set ->
  Permutation (concat (upd set i (set.[i] ++ l))) (l ++ concat set).
Proof.
  revert i. induction set as [|h t IH]; intros [|i] Hi; simpl in *; try lia.
  - change ((h :: t).[0]) with h. rewrite (app_assoc l h). apply Permutation_app_tail. apply Permutation_app_comm.
  - change ((h :: t).[S i]) with (t.[i]). rewrite IH by lia. rewrite !app_assoc. apply Permutation_app_tail. apply Permutation_app_comm.
Qed.

Lemma concat_firstn_S (set : list (list nat)) l : l < length set -> concat (firstn (S l) set) = concat (firstn l set) ++ set.[l].
Proof.
  revert l. induction set as [|h t IH]; intros l Hl; simpl in Hl; [lia|]. destruct l as [|l].
  - simpl. now rewrite app_nil_r.
  - change ((h :: t).[S l]) with (t.[l]). cbn [firstn concat]. rewrite <- app_assoc. f_equal. apply IH. lia.
Qed.

Lemma upd_app_mid (l1 : list nat) x l2 v : upd (l1 ++ x :: l2) (length l1) v = l1 ++ v :: l2.
Proof. induction l1; simpl; congruence. Qed.

Section Bfs.
Context {T : Type} `{DT : Dflt T}.
Variables (zero : T) (add : T -> T -> T) (ltb : T -> T -> bool).
Variables (n : nat) (dp di : list nat) (weight : list T).
Hypothesis WF : wf_csc n dp di.
Hypothesis HW : n <= length weight.

(** [vis] marks exactly the nodes of [D ++ stk], which are distinct *)
Definition Vis (D stk : list nat) (vis : list bool) : Prop :=
  length vis = n /\ NoDup (D ++ stk) /\ (forall v, In v (D ++ stk) -> v < n) /\
  forall v, v < n -> (vis.[v] = true <-> In v (D ++ stk)).

Lemma Vis_perm D stk D' stk' vis : Permutation (D ++ stk) (D' ++ stk') -> Vis D stk vis -> Vis D' stk' vis.
Proof.
  intros HP (V1 & V2 & V3 & V4). unfold Vis. splits; auto.
  - eapply Permutation_NoDup; eauto.
  - intros v Hv. apply V3. eapply Permutation_in; [symmetry; exact HP|auto].
  - intros v Hv. rewrite V4 by auto. split; apply Permutation_in; auto. now symmetry.
Qed.

Lemma Vis_push D stk vis c : Vis D stk vis -> c < n -> vis.[c] = false -> Vis D (stk ++ [c]) (upd vis c true).
Proof.
  intros (V1 & V2 & V3 & V4) Hc Hv. assert (~ In c (D ++ stk)) by (rewrite <- V4 by auto; congruence).
  unfold Vis. rewrite upd_length, app_assoc. splits; auto.
  - apply NoDup_snoc; auto.
  - intros v. rewrite in_app_iff. intros [?|[<-|[]]]; auto.
  - intros v Hvn. rewrite in_app_iff. simpl. destruct (Nat.eq_dec v c) as [->|].
    + rewrite aget_upd_eq by lia. split; auto.
    + rewrite aget_upd_ne by lia. rewrite V4 by auto. split; [auto|]. intros [?|[?|[]]]; [auto|lia].
Qed.

Lemma Vis_count D stk vis : Vis D stk vis -> length D + length stk <= n.
Proof. intros (V1 & V2 & V3 & V4). rewrite <- app_length. apply NoDup_bounded_length; auto. Qed.

Lemma bfs_expand_wp D cn stk vis : cn < n -> Vis D stk vis ->
  wp (bfs_expand dp di cn stk vis) (fun r => Vis D (fst r) (snd r)).
Proof.
  intros Hc HV. destruct WF as (W1 & W2 & W3 & W4 & W5). unfold bfs_expand. wp1. wp1; [lia|]. wp1. wp1; [lia|].
  pose proof (W3 cn Hc). assert (dp.[S cn] <= dp.[n]) by (apply (mono_le (aget dp) n); auto; lia).
  apply (wp_for (fun _ s => Vis D (fst s) (snd s))); auto.
  intros k [s v] Hk HV'. cbn [fst snd] in *. pose proof (W5 k ltac:(lia)). pose proof (proj1 HV') as V1. wp1. wp1; [lia|]. wp1. wp1; [lia|].
  destruct v.[di.[k]] eqn:Ev; wp1; cbn [fst snd]; auto.
  wp1; [lia|]. wp1. cbn [fst snd]. apply Vis_push; auto.
Qed.

Definition BInv (s : bst) : Prop := Vis (concat (b_set s)) (b_stk s) (b_vis s) /\ b_cnt s = length (concat (b_set s)).

(** parts other than [i] are as before *)
Definition others (i : nat) (s s' : bst) : Prop :=
  length (b_set s') = length (b_set s) /\ forall l, l <> i -> (b_set s').[l] = (b_set s).[l].

Lemma bfs_inner_wp i e s c : BInv s -> i < length (b_set s) -> b_stk s <> [] -> c = total zero add weight (b_set s).[i] ->
  wp (bfs_inner add ltb n dp di weight i e s c) (fun r =>
     let '(_, s', c') := r in BInv s' /\ others i s s' /\ c' = total zero add weight (b_set s').[i] /\ b_cnt s < b_cnt s').
Proof.
  intros HB Hi Hst Hc. unfold bfs_inner.
  apply (wp_while (fun r => let '(stop, s', c') := r in BInv s' /\ others i s s' /\ c' = total zero add weight (b_set s').[i] /\
      (b_cnt s < b_cnt s' \/ (stop = false /\ b_stk s' <> [] /\ b_cnt s' = b_cnt s))) (fun r => let '(_, s', _) := r in n - b_cnt s')).
  - split; [auto|]. split; [split; auto|]. split; auto.
  - destruct HB as [HV Hn]. pose proof (Vis_count _ _ _ HV). lia.
  - intros [[stop s'] c'] (I1 & I2 & I3 & I4). destruct (b_stk s') as [|cn stk] eqn:Es.
    + rewrite andb_false_r. wp1. destruct I4 as [I4|[_ [I4 _]]]; [|congruence]. auto.
    + destruct stop; cbn [negb andb]; wp1.
      * destruct I4 as [I4|[I4 _]]; [|congruence]. auto.
      * destruct I1 as [HV Hn]. destruct I2 as [O1 O2]. rewrite Es in HV.
        pose proof (Vis_count _ _ _ HV) as HL. simpl in HL.
        assert (Hcn : cn < n) by (destruct HV as (_ & _ & V3 & _); apply V3; apply in_app_iff; right; now left).
        wp1. wp1; [lia|]. wp1. wp1; [lia|]. wp1. wp1; [lia|]. wp1.
        assert (HP : Permutation (concat (upd (b_set s') i ((b_set s').[i] ++ [cn]))) (cn :: concat (b_set s'))) by (apply concat_upd_perm; lia).
        eapply wp_mono; [apply (bfs_expand_wp (concat (upd (b_set s') i ((b_set s').[i] ++ [cn]))) cn stk (b_vis s') Hcn)|].
        { eapply Vis_perm; [|exact HV]. rewrite HP. symmetry. apply (Permutation_middle (concat (b_set s')) stk cn). }
        intros [stk' vis'] HV'. cbn [fst snd] in HV'. wp1.
        assert (HLen : length (concat (upd (b_set s') i ((b_set s').[i] ++ [cn]))) = S (length (concat (b_set s')))) by (rewrite (Permutation_length HP); reflexivity).
        unfold BInv, others. cbn [b_set b_stk b_vis b_cnt fst snd]. rewrite upd_length. split; [|lia]. splits; auto; try lia.
        -- intros l Hl. rewrite aget_upd_ne by lia. auto.
        -- rewrite aget_upd_eq by lia. rewrite total_snoc. congruence.
Qed.

Lemma first_unvisited_wp vis : length vis = n ->
  wp (first_unvisited n vis) (fun k => (k < n /\ vis.[k] = false) \/ (k = n /\ forall v, v < n -> vis.[v] = true)).
Proof.
  intros HL. unfold first_unvisited.
  apply (wp_forb (fun i r => r = n /\ forall v, v < i -> vis.[v] = true)).
  - lia.
  - split; auto. lia.
  - intros k r Hk [-> HI]. wp1. wp1; [lia|]. destruct vis.[k] eqn:Ev; wp1; cbn [fst snd].
    + split; auto. intros v Hv. destruct (Nat.eq_dec v k) as [->|]; auto. apply HI. lia.
    + left. split; auto. lia.
  - intros r [-> HI]. right. auto.
Qed.

Lemma Vis_full D stk vis : Vis D stk vis -> (forall v, v < n -> vis.[v] = true) -> n <= length D + length stk.
Proof.
  intros (V1 & V2 & V3 & V4) HA. rewrite <- app_length. replace n with (length (seq 0 n)) by apply seq_length.
  apply NoDup_incl_length; [apply seq_NoDup|]. intros v Hv. apply in_seq in Hv. apply V4; [lia|]. apply HA. lia.
Qed.

Lemma bfs_part_wp ew i s : BInv s -> i < length (b_set s) -> i < length ew -> (b_set s).[i] = [] ->
  wp (bfs_part zero add ltb n dp di weight ew i s) (fun s' =>
    BInv s' /\ others i s s' /\ (s' = s \/ b_cnt s < b_cnt s') /\ (ltb (total zero add weight (b_set s').[i]) ew.[i] = false \/ b_cnt s' = n)).
Proof.
  intros HB Hi He Hs. unfold bfs_part. wp1. wp1; [lia|]. wp1.
  apply (wp_while (fun r => let '(stop, s', c') := r in stop = false /\ BInv s' /\ others i s s' /\ (s' = s \/ b_cnt s < b_cnt s') /\ c' = total zero add weight (b_set s').[i])
     (fun r => let '(_, s', _) := r in n - b_cnt s')).
  - splits; auto. + split; auto. + now rewrite Hs.
  - lia.
  - intros [[stop s'] c'] (-> & I1 & I2 & I5 & I3). assert (I6 : b_cnt s <= b_cnt s') by (destruct I5; [subst|]; lia). destruct I1 as [HV Hn]. pose proof (Vis_count _ _ _ HV) as HC. wp1. cbn [negb andb].
    destruct (ltb c' ew.[i]) eqn:Ec; cbn [andb]; [destruct (Nat.ltb_spec (b_cnt s') n) as [Hcn|Hcn]|].
    + destruct (b_stk s') as [|v stk] eqn:Es.
      * wp1. eapply wp_mono; [apply first_unvisited_wp; apply HV|]. intros k [[Hk Hk']|[-> Hall]].
        -- destruct (Nat.eqb_spec k n); [lia|]. wp1. wp1; [destruct HV; lia|]. wp1.
           eapply wp_mono; [apply bfs_inner_wp|].
           ++ split; cbn [b_set b_stk b_vis b_cnt]; auto. apply (Vis_push _ [] _ k); auto.
           ++ cbn [b_set]. destruct I2; lia.
           ++ discriminate.
           ++ cbn [b_set]. auto.
           ++ intros [[b s2] c2] (R1 & R2 & R3 & R4). cbn [b_cnt b_set] in *. wp1. cbn [fst snd]. split.
              ** splits; auto; try lia. destruct I2 as [O1 O2], R2 as [O3 O4]. cbn [b_set] in *. split; [lia|]. intros l Hl. rewrite O4, O2 by auto. auto.
              ** destruct R1 as [R1 R1']. pose proof (Vis_count _ _ _ R1). lia.
        -- exfalso. pose proof (Vis_full _ _ _ HV Hall). simpl in *. lia.
      * wp1. eapply wp_mono; [apply bfs_inner_wp|].
        ++ split; auto. rewrite Es. auto.
        ++ destruct I2; lia.
        ++ rewrite Es. discriminate.
        ++ auto.
        ++ intros [[b s2] c2] (R1 & R2 & R3 & R4). wp1. cbn [fst snd]. split.
           ** splits; auto; try lia. destruct I2 as [O1 O2], R2 as [O3 O4]. split; [lia|]. intros l Hl. rewrite O4, O2 by auto. auto.
           ** destruct R1 as [R1 R1']. pose proof (Vis_count _ _ _ R1). lia.
    + wp1. cbn [fst snd]. splits; auto. { split; auto. } right. lia.
    + wp1. cbn [fst snd]. splits; auto. { split; auto. } left. congruence.
Qed.

(** * The whole function *)

Variables (part_no : nat) (ew : list T).
Hypothesis HE : part_no <= length ew.
Hypothesis HP1 : 1 <= part_no.

(** part [l] reaches its target or the later parts are empty *)
Definition reached (set : list (list nat)) (l : nat) : Prop :=
  ltb (total zero add weight set.[l]) ew.[l] = false \/ forall l', l < l' < part_no -> set.[l'] = [].

Definition main_loop : res bst :=
  forb_ 0 part_no (fun i s =>
         if b_cnt s <? n then
           (if length (b_stk s) <? n then s <- bfs_part zero add ltb n dp di weight ew i s ;; Ok (false, s) else Err Throw)
         else Ok (true, s))
       (mkB (repeat false n) 0 [] (repeat [] part_no)).

Lemma concat_repeat_nil m : concat (repeat ([] : list nat) m) = [].
Proof. induction m; simpl; auto. Qed.

Lemma main_loop_wp : wp main_loop (fun s => BInv s /\ length (b_set s) = part_no /\
   (b_cnt s < n -> forall l, l < part_no -> ltb (total zero add weight (b_set s).[l]) ew.[l] = false) /\
   (forall l, l < part_no -> reached (b_set s) l)).
Proof.
  unfold main_loop.
  apply (wp_forb (fun i s => BInv s /\ length (b_set s) = part_no /\ (forall l, i <= l < part_no -> (b_set s).[l] = []) /\
     (b_cnt s = 0 -> b_stk s = []) /\
     (b_cnt s < n -> forall l, l < i -> ltb (total zero add weight (b_set s).[l]) ew.[l] = false) /\
     (forall l, l < i -> reached (b_set s) l))).
  - lia.
  - unfold BInv. cbn [b_set b_stk b_vis b_cnt]. rewrite concat_repeat_nil, repeat_length. splits; auto; try lia.
    + unfold Vis. splits; auto; [apply repeat_length|constructor|intros v []|]. intros v Hv. rewrite aget_repeat by auto. split; [discriminate|intros []].
    + intros l Hl. apply aget_repeat. lia.
  - intros i s Hi (HB & HL & H3 & H4 & H5 & H6). destruct (Nat.ltb_spec (b_cnt s) n) as [Hc|Hc].
    + destruct HB as [HV Hn] eqn:EB. pose proof (Vis_count _ _ _ HV). destruct (Nat.ltb_spec (length (b_stk s)) n) as [Hs|Hs].
      * wp1. eapply wp_mono; [apply (bfs_part_wp ew i s HB); try lia; apply H3; lia|]. intros s' (R1 & (O1 & O2) & R5 & R3). wp1. cbn [fst snd].
        assert (G : forall l, l < i -> ltb (total zero add weight (b_set s').[l]) ew.[l] = false).
        { intros l Hl. rewrite O2 by lia. apply H5; auto. }
        splits; auto; try lia.
        -- intros l Hl. rewrite O2 by lia. apply H3. lia.
        -- intros H0. destruct R5 as [->|]; [auto|lia].
        -- intros Hc' l Hl. destruct (Nat.eq_dec l i) as [->|]; [|apply G; lia]. destruct R3; [auto|lia].
        -- intros l Hl. destruct (Nat.eq_dec l i) as [->|]; [|left; apply G; lia]. destruct R3 as [R3|R3]; [left; auto|]. right. intros l' Hl'. rewrite O2 by lia. apply H3. lia.
      * exfalso. rewrite H4 in Hs by lia. simpl in Hs. lia.
    + wp1. cbn [fst snd]. splits; auto; try lia. intros l Hl. destruct (Nat.lt_ge_cases l i); [auto|]. right. intros l' Hl'. apply H3. lia.
  - intros s (HB & HL & H3 & H4 & H5 & H6). splits; auto.
Qed.

Lemma upd_same {A} `{Dflt A} (l : list A) i : upd l i l.[i] = l.
Proof. revert i. induction l as [|x l IH]; intros [|i]; simpl; auto. f_equal. apply IH. Qed.

Lemma upd_upd' {A} (l : list A) i v w : upd (upd l i v) i w = upd l i w.
Proof. revert i. induction l as [|x l IH]; intros [|i]; simpl; auto. now rewrite IH. Qed.

Definition add_last (v : nat) (set : list (list nat)) : res (list (list nat)) :=
  l <- rdZ set (Z.of_nat part_no - 1) ;; wrZ set (Z.of_nat part_no - 1) (l ++ [v]).

Lemma add_last_wp v set L : length set = part_no ->
  wp (add_last v (upd set (part_no - 1) (set.[part_no - 1] ++ L))) (fun set' => set' = upd set (part_no - 1) (set.[part_no - 1] ++ L ++ [v])).
Proof.
  intros HL. unfold add_last, rdZ, wrZ. replace (Z.to_nat (Z.of_nat part_no - 1)) with (part_no - 1) by lia.
  destruct (Z.ltb_spec (Z.of_nat part_no - 1) 0); [lia|]. wp1. wp1; [rewrite upd_length; lia|]. wp1; [rewrite upd_length; lia|].
  rewrite aget_upd_eq by lia. rewrite upd_upd', <- app_assoc. reflexivity.
Qed.

Definition leftovers (s : bst) : res (list (list nat)) :=
  set <- foreach (b_stk s) (fun v set => l <- rdZ set (Z.of_nat part_no - 1) ;; wrZ set (Z.of_nat part_no - 1) (l ++ [v])) (b_set s) ;;
  for_ 0 n (fun k set => b <- rd (b_vis s) k ;;
           if (b : bool) then Ok set else l <- rdZ set (Z.of_nat part_no - 1) ;; wrZ set (Z.of_nat part_no - 1) (l ++ [k])) set.

Lemma leftovers_wp s : BInv s -> length (b_set s) = part_no ->
  wp (leftovers s) (fun set => length set = part_no /\ Permutation (concat set) (seq 0 n) /\
     (forall l, l < part_no - 1 -> set.[l] = (b_set s).[l]) /\ (b_cnt s = n -> set = b_set s)).
Proof.
  intros [HV Hn] HL. unfold leftovers. set (base := b_set s) in *. wp1.
  apply (wp_foreach (fun pre set => set = upd base (part_no - 1) (base.[part_no - 1] ++ pre))).
  - rewrite app_nil_r. symmetry. apply upd_same.
  - intros pre x post st E ->. apply add_last_wp. auto.
  - intros st ->. set (U := fun k => filter (fun v => negb (b_vis s).[v]) (seq 0 k)).
    apply (wp_for (fun k set => set = upd base (part_no - 1) (base.[part_no - 1] ++ b_stk s ++ U k))).
    + lia.
    + unfold U. simpl. now rewrite app_nil_r.
    + intros k st Hk ->. wp1. destruct HV as (V1 & _). wp1; [lia|]. unfold U. rewrite seq_S, filter_app. simpl.
      destruct (b_vis s).[k]; cbn [negb].
      * wp1. now rewrite app_nil_r.
      * eapply wp_mono; [apply (add_last_wp k base (b_stk s ++ U k)); auto|]. intros st ->. f_equal. f_equal. unfold U. now rewrite <- app_assoc.
    + intros st ->. rewrite upd_length. pose proof HV as (V1 & V2 & V3 & V4). splits; auto.
      * rewrite concat_upd_app by lia. apply NoDup_Permutation; [|apply seq_NoDup|].
        -- apply (Permutation_NoDup (l := (concat base ++ b_stk s) ++ U n)).
           { rewrite app_assoc_reverse. apply Permutation_app_comm. }
           assert (NoDup (U n)) by (apply NoDup_filter, seq_NoDup).
           assert (HD : forall x, In x (concat base ++ b_stk s) -> ~ In x (U n)).
           { intros x Hx Hx'. apply filter_In in Hx'. destruct Hx' as [_ Hx']. rewrite (proj2 (V4 x (V3 x Hx)) Hx) in Hx'. discriminate. }
           clear - V2 H HD. induction V2 as [|x l Hx HN IH]; simpl; auto. constructor.
           ++ rewrite in_app_iff. intros [?|?]; [auto|]. apply (HD x); auto. now left.
           ++ apply IH. intros y Hy. apply HD. now right.
        -- intros x. rewrite !in_app_iff, in_seq. split.
           ++ intros [[Hx|Hx]|Hx]; try (specialize (V3 x); rewrite in_app_iff in V3; specialize (V3 ltac:(auto)); lia).
              apply filter_In in Hx. destruct Hx as [Hx _]. apply in_seq in Hx. lia.
           ++ intros Hx. destruct (b_vis s).[x] eqn:Ex.
              ** apply V4 in Ex; [|lia]. apply in_app_iff in Ex. tauto.
              ** left. right. apply filter_In. rewrite in_seq, Ex. split; auto; lia.
      * intros l Hl. now rewrite aget_upd_ne by lia.
      * intros Hc. pose proof (Vis_count _ _ _ HV) as HC. fold base in HC, Hn. destruct (b_stk s) as [|a q] eqn:Es; [|simpl in HC; lia].
        assert (EU : U n = []).
        { destruct (U n) as [|a q] eqn:EU; auto. exfalso. assert (Ha : In a (U n)) by (rewrite EU; now left). apply filter_In in Ha. destruct Ha as [Ha Hb]. apply in_seq in Ha.
          assert (Hin : In a (concat base ++ [])).
          { rewrite app_nil_r in *. destruct (In_dec Nat.eq_dec a (concat base)) as [?|Hno]; auto. exfalso.
            assert (S (length (concat base)) <= n); [|lia]. change (S (length (concat base))) with (length (a :: concat base)). apply NoDup_bounded_length.
            - constructor; auto.
            - intros y [<-|Hy]; [lia|]. apply V3. auto. }
          apply V4 in Hin; [|lia]. rewrite Hin in Hb. discriminate. }
        rewrite EU. cbn [app]. rewrite app_nil_r. apply upd_same.
Qed.

Definition pack (set : list (list nat)) : res (list nat * list nat) :=
  for_ 0 (length set) (fun l '(ptr, nodes) =>
         L <- rd set l ;; ip <- rd ptr l ;;
         ptr <- wr ptr (S l) (ip + length L) ;;
         q <- foreach L (fun v '(ip, nodes) => if ip <? n then nodes <- wr nodes ip v ;; Ok (S ip, nodes) else Err Throw) (ip, nodes) ;;
         Ok (ptr, snd q))
       (repeat 0 (S part_no), repeat 0 n).

Lemma concat_firstn_length (set : list (list nat)) l : length (concat (firstn l set)) <= length (concat set).
Proof. rewrite <- (firstn_skipn l set) at 2. rewrite concat_app, app_length. lia. Qed.

Lemma pack_wp set : length set = part_no -> length (concat set) = n ->
  wp (pack set) (fun r => length (fst r) = S part_no /\ snd r = concat set /\ forall l, l <= part_no -> (fst r).[l] = length (concat (firstn l set))).
Proof.
  intros HL HC. unfold pack.
  apply (wp_for (fun i r => length (fst r) = S part_no /\ (forall l, l <= i -> (fst r).[l] = length (concat (firstn l set))) /\
     snd r = concat (firstn i set) ++ repeat 0 (n - length (concat (firstn i set))))).
  - lia.
  - cbn [fst snd]. splits; auto.
    + now rewrite repeat_length.
    + intros l Hl. assert (l = 0) by lia. subst. reflexivity.
    + simpl. now rewrite Nat.sub_0_r.
  - intros i [ptr nodes] Hi (I1 & I2 & I3). cbn [fst snd] in *.
    pose proof (concat_firstn_length set (S i)) as HS. rewrite concat_firstn_S in HS by lia. rewrite app_length in HS.
    wp1. wp1; [lia|]. wp1. wp1; [lia|]. rewrite I2 by lia. wp1. wp1; [lia|]. wp1.
    set (C := concat (firstn i set)) in *.
    apply (wp_foreach (fun pre q => fst q = length C + length pre /\ snd q = C ++ pre ++ repeat 0 (n - length C - length pre))).
    + cbn [fst snd length]. split; [lia|]. rewrite I3. simpl. f_equal. f_equal. lia.
    + intros pre x post [ip nd] E (J1 & J2). cbn [fst snd] in *. assert (length set.[i] = length pre + S (length post)) by (rewrite E, app_length; reflexivity).
      destruct (Nat.ltb_spec ip n); [|lia]. wp1. wp1; [rewrite J2, !app_length, repeat_length; lia|]. wp1. cbn [fst snd]. rewrite app_length. cbn [length]. split; [lia|].
      rewrite J2. destruct (n - length C - length pre) as [|m] eqn:Em; [lia|]. cbn [repeat]. rewrite app_assoc, J1, <- app_length, upd_app_mid.
      rewrite <- !app_assoc. cbn [app]. do 4 f_equal. lia.
    + intros [ip nd] (J1 & J2). cbn [fst snd] in *. wp1. cbn [fst snd]. rewrite upd_length. splits; auto.
      * intros l Hl. destruct (Nat.eq_dec l (S i)) as [->|].
        -- rewrite aget_upd_eq by lia. rewrite concat_firstn_S, app_length by lia. reflexivity.
        -- rewrite aget_upd_ne by lia. apply I2. lia.
      * rewrite concat_firstn_S by lia. fold C. rewrite J2, app_length, <- app_assoc. do 3 f_equal. lia.
  - intros [ptr nodes] (I1 & I2 & I3). cbn [fst snd] in *. splits; auto.
    + rewrite I3. rewrite firstn_all. rewrite HC, Nat.sub_diag, app_nil_r. reflexivity.
    + rewrite HL in I2. auto.
Qed.

Theorem partition_by_bfs_wp :
  exists ptr nodes, partition_by_bfs zero add ltb n dp di weight part_no ew = Ok ([0; part_no], ptr, nodes) /\
    is_perm n nodes /\ length ptr = S part_no /\ ptr.[0] = 0 /\ ptr.[part_no] = n /\
    (forall l, l < part_no -> ptr.[l] <= ptr.[S l]) /\
    (forall l, l < part_no -> ltb (total zero add weight (slice nodes ptr.[l] ptr.[S l])) ew.[l] = false \/ ptr.[S l] = n \/ l = part_no - 1).
Proof.
  set (P := fun r : list nat * list nat * list nat => let '(lv, ptr, nodes) := r in lv = [0; part_no] /\
    is_perm n nodes /\ length ptr = S part_no /\ ptr.[0] = 0 /\ ptr.[part_no] = n /\
    (forall l, l < part_no -> ptr.[l] <= ptr.[S l]) /\
    (forall l, l < part_no -> ltb (total zero add weight (slice nodes ptr.[l] ptr.[S l])) ew.[l] = false \/ ptr.[S l] = n \/ l = part_no - 1)).
  assert (G : wp (partition_by_bfs zero add ltb n dp di weight part_no ew) P).
  { unfold partition_by_bfs. wp1. eapply wp_mono; [apply main_loop_wp|]. intros s (HB & HL & H3 & H4).
    assert (G1 : wp (set <- leftovers s ;; r <- pack set ;; Ok ([0; part_no], fst r, snd r)) P).
    { wp1. eapply wp_mono; [apply leftovers_wp; auto|]. intros st (L1 & L2 & L3 & L4). wp1.
      assert (HC : length (concat st) = n) by (rewrite (Permutation_length L2); apply seq_length).
      eapply wp_mono; [apply pack_wp; auto|]. intros [ptr nodes] (K1 & K2 & K3). cbn [fst snd] in *. wp1. unfold P.
      assert (M : forall l, l < part_no -> ptr.[S l] = ptr.[l] + length st.[l]).
      { intros l Hl. rewrite !K3 by lia. rewrite concat_firstn_S, app_length by lia. reflexivity. }
      assert (PN : ptr.[part_no] = n) by (rewrite K3 by lia; rewrite <- L1, firstn_all; auto).
      splits; auto.
      - apply is_perm_Permutation. subst nodes. auto.
      - rewrite K3 by lia. reflexivity.
      - intros l Hl. rewrite M by auto. lia.
      - intros l Hl.
        assert (Sl : slice nodes ptr.[l] ptr.[S l] = st.[l]).
        { rewrite M by auto. unfold slice. replace (ptr.[l] + length st.[l] - ptr.[l]) with (length st.[l]) by lia.
          rewrite K2, K3 by lia. replace (concat st) with (concat (firstn l st) ++ st.[l] ++ concat (skipn (S l) st)).
          2: { rewrite app_assoc, <- concat_firstn_S by lia. rewrite <- concat_app, firstn_skipn. reflexivity. }
          rewrite skipn_app, skipn_all, Nat.sub_diag. cbn [skipn app]. rewrite firstn_app, Nat.sub_diag, firstn_all, firstn_O, app_nil_r. reflexivity. }
        rewrite Sl. destruct (Nat.eq_dec l (part_no - 1)); [auto|].
        destruct (Nat.lt_ge_cases (b_cnt s) n) as [Hc|Hc].
        + left. rewrite L3 by lia. auto.
        + destruct HB as [HV Hn]. pose proof (Vis_count _ _ _ HV). pose proof (L4 ltac:(lia)) as Est. subst st. destruct (H4 l Hl) as [?|He]; [auto|]. right. left.
          assert (Q : forall d, S l + d <= part_no -> ptr.[S l + d] = ptr.[S l]).
          { induction d as [|d IH]; intros Hd; [f_equal; lia|]. replace (S l + S d) with (S (S l + d)) by lia. rewrite M, IH by lia. rewrite He by lia. simpl. lia. }
          rewrite <- PN. rewrite <- (Q (part_no - S l)) by lia. f_equal. lia. }
    unfold leftovers, pack in G1. clear - G1.
    destruct (foreach (b_stk s) _ (b_set s)) as [st|]; [|exact G1]. exact G1. }
  destruct (partition_by_bfs zero add ltb n dp di weight part_no ew) as [[[lv ptr] nodes]|]; [|contradiction]. cbn in G. destruct G as (-> & G). exists ptr, nodes. auto.
Qed.
End Bfs.

(** no part to put the nodes into: index -1 *)
Lemma partition_by_bfs_zero {T} `{DT : Dflt T} (zero : T) add ltb n dp di weight ew : 1 <= n ->
  partition_by_bfs zero add ltb n dp di weight 0 ew = Err OOB.
Proof.
  intros Hn. unfold partition_by_bfs. cbn [forb_ forb_n Nat.sub bind b_stk foreach b_set repeat b_vis]. rewrite for_step by lia.
  destruct n as [|m]; [lia|]. reflexivity.
Qed.
