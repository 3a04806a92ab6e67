(** Properties C139-C142: the incomplete Cholesky kernels. *)
From Coq Require Import ZifyBool ZifyNat Permutation Sorting.Sorted.
From Verif Require Import Base Lib Lib2 Spec SpecSolve SpecIC Check CheckS CheckG M_SpTRSV M_IC0 L_SpTRSV L_SpTRSV2 L_Post L_IC0 L_IC1 L_IC2.

(** ** C139.  The serial kernel computes the incomplete factor, term by term in column order. *)
Theorem C139_ic0_serial :
  forall (V : Type) (DV : Dflt V) fms quo root n Lp Li (x : list V),
  chol_pattern n Lp Li -> Lp.[n] <= length x ->
  exists y, ic0_csc fms quo root n Lp Li x = Ok y /\ ichol fms quo root by_column n Lp Li x y.
Proof.
  intros V DV fms quo root n Lp Li x CP HX. eexists. split; [apply ic0_csc_run; auto|].
  apply good_ichol; auto; [apply serial_good; auto|]. intros c k ml. apply serial_by_column; auto.
Qed.
Print Assumptions C139_ic0_serial.

(** *** In exact arithmetic the factor reproduces the matrix on the pattern *)

(** [ml] lists the factors of entry (r,c) of L times its transpose *)
Definition product_terms (n : nat) (Lp Li : list nat) (r c : nat) (ml : list (nat * nat)) : Prop :=
  NoDup ml /\ forall m l, In (m, l) ml <->
    exists u, u < n /\ Lp.[u] <= m < Lp.[S u] /\ Lp.[u] <= l < Lp.[S u] /\ Li.[m] = c /\ Li.[l] = r.

Definition sum_of {V} (add : V -> V -> V) (zero : V) (l : list V) : V := fold_right add zero l.

(** [s] is the value whose square root becomes the pivot of column [c] *)
Definition pivot_value {V} `{Dflt V} fms (n : nat) (Lp Li : list nat) (x y : list V) (c : nat) (s : V) : Prop :=
  exists ml, terms_of n Lp Li c Lp.[c] ml /\ s = fold_left (fun v p => fms v y.[fst p] y.[snd p]) ml x.[Lp.[c]].

Lemma sum_perm {V} (add : V -> V -> V) zero l l' : (forall a b, add a b = add b a) -> (forall a b c, add a (add b c) = add (add a b) c) ->
  Permutation l l' -> sum_of add zero l = sum_of add zero l'.
Proof.
  intros C A HP. induction HP as [|x l l' _ IH|x y l|l1 l2 l3 _ IH1 _ IH2]; simpl; auto; [now rewrite IH| |congruence].
  rewrite !A. now rewrite (C y x).
Qed.

Theorem C139_ic0_exact :
  forall (V : Type) (DV : Dflt V) (add mul : V -> V -> V) (zero : V) (pos : V -> Prop) fms quo root n Lp Li (x y : list V),
  chol_pattern n Lp Li -> Lp.[n] <= length x ->
  (forall a b, add a b = add b a) -> (forall a b c, add a (add b c) = add (add a b) c) -> (forall a, add a zero = a) ->
  (forall a b c, add (fms a b c) (mul b c) = a) ->
  (forall s, pos s -> mul (quo s (root s)) (quo s (root s)) = s) ->
  (forall a s, pos s -> mul (quo s (root s)) (quo a (quo s (root s))) = a) ->
  ic0_csc fms quo root n Lp Li x = Ok y ->
  (forall c s, c < n -> pivot_value fms n Lp Li x y c s -> pos s) ->
  forall c k ml, c < n -> Lp.[c] <= k < Lp.[S c] -> product_terms n Lp Li Li.[k] c ml ->
    sum_of add zero (map (fun p => mul y.[fst p] y.[snd p]) ml) = x.[k].
Proof.
  intros V DV add mul zero pos fms quo root n Lp Li x y CP HX AC AA AZ HF HS HD HR HP c k ml Hc Hk (ND & HM).
  destruct (C139_ic0_serial V DV fms quo root n Lp Li x CP HX) as (y' & E & (IL & IO & IE)). assert (y' = y) as -> by congruence. clear E.
  destruct (IE c k Hc Hk) as (ts & (NDt & HT) & _ & Ek). set (s := fold_left _ ts _) in Ek. cbv zeta in Ek.
  destruct (ic_bounds n Lp Li CP c Hc) as (B1 & _). destruct (IE c Lp.[c] Hc) as (td & TD & _ & Ed); [lia|]. cbv zeta in Ed. rewrite Nat.eqb_refl in Ed.
  set (sd := fold_left _ td _) in Ed. assert (Psd : pos sd) by (apply (HP c); auto; exists td; split; auto).
  assert (EP : Permutation ml ((Lp.[c], k) :: ts)).
  { apply NoDup_Permutation; auto.
    - constructor; auto. intros Hin. apply HT in Hin. destruct Hin as (u & Hu & Huc & Hm & _).
      assert (u = c) by (apply (ic_unique n Lp Li CP u c Lp.[c]); auto; lia). lia.
    - intros [m l]. rewrite HM. simpl. rewrite HT. pose proof CP as (_ & _ & _ & DF). destruct (DF c Hc) as (_ & D2 & _). split.
      + intros (u & Hu & Hm & Hl & Em & El). destruct (Nat.eq_dec u c) as [->|Hne].
        * left. f_equal; [apply (ic_inj n Lp Li CP c Lp.[c] m)|apply (ic_inj n Lp Li CP c k l)]; auto; try lia.
        * right. exists u. splits; auto; try lia. destruct (Nat.eq_dec m Lp.[u]) as [->|]; [destruct (DF u Hu) as (_ & ? & _); lia|].
          destruct (ic_below n Lp Li CP u m Hu); lia.
      + intros [E|(u & Hu & Huc & Hm & Hl & Em & El)]; [injection E as <- <-; exists c; splits; auto; lia|exists u; splits; auto; lia]. }
  rewrite (sum_perm add zero _ (map (fun p => mul y.[fst p] y.[snd p]) ((Lp.[c], k) :: ts))); auto; [|now apply Permutation_map].
  cbn [map fst snd]. change (add (mul y.[Lp.[c]] y.[k]) (sum_of add zero (map (fun p => mul y.[fst p] y.[snd p]) ts)) = x.[k]).
  assert (EM : mul y.[Lp.[c]] y.[k] = s).
  { destruct (Nat.eqb_spec k Lp.[c]) as [->|Hn].
    - rewrite Ek. apply HS. apply (HP c); auto. exists ts. split; auto. split; auto.
    - rewrite Ek, Ed. apply HD; auto. }
  rewrite EM. unfold s. clear - AC AA AZ HF. generalize x.[k]. induction ts as [|p ts IH]; intros v; simpl; [apply AZ|].
  rewrite (AC (mul _ _)), AA. unfold sum_of in *. simpl in *. rewrite IH. apply HF.
Qed.
Print Assumptions C139_ic0_exact.

(** ** C140.  The parallel kernels. *)

(** Every interleaving: no access fails, an unfinished execution can step, no execution is
    infinite, there is a complete one, no two threads access an element at the same time
    except by atomic updates, and every complete execution ends with an incomplete factor. *)
Definition factorises {V} `{Dflt V} fms quo root (n : nat) (Lp Li : list nat) (x : list V) (OP : iprog) : Prop :=
  (forall s, i_steps fms quo root OP (i_start OP x) s ->
     ~ i_bad fms quo root OP s /\ ~ i_race OP s /\ (i_final OP s \/ exists s', i_step fms quo root OP s s')) /\
  (~ exists run, run 0 = i_start OP x /\ forall i, i_step fms quo root OP (run i) (run (S i))) /\
  (exists x', i_exec fms quo root OP x x') /\
  (forall x', i_exec fms quo root OP x x' -> ichol fms quo root any_order n Lp Li x x').

(** the subtractions can be exchanged: exact arithmetic *)
Definition exchangeable {V} (fms : V -> V -> V -> V) : Prop := forall a b c d e, fms (fms a b c) d e = fms (fms a d e) b c.

(** and then every complete execution ends with the result of the serial kernel *)
Definition like_serial {V} `{Dflt V} fms quo root (n : nat) (Lp Li : list nat) (x : list V) (OP : iprog) : Prop :=
  exchangeable fms -> forall x', i_exec fms quo root OP x x' -> ic0_csc fms quo root n Lp Li x = Ok x'.

Lemma prog_factorises {V} `{Dflt V} fms quo root n Lp Li (x : list V) P brk : chol_pattern n Lp Li -> Lp.[n] <= length x ->
  prog_ok n (edge n Lp Li) P ->
  exists O, ic_prog brk Lp Li P = Ok O /\ factorises fms quo root n Lp Li x O /\ like_serial fms quo root n Lp Li x O.
Proof.
  intros CP HX PO. exists (OP Lp Li P). split; [|split].
  - apply (ic_prog_ok n); auto. eapply prog_good; eauto.
  - assert (HI : forall s, i_steps fms quo root (OP Lp Li P) (i_start (OP Lp Li P) x) s -> IInv fms quo root Lp Li P x s).
    { intros s Hs. eapply (steps_IInv fms quo root n Lp Li CP P PO x HX); eauto. eapply start_IInv; eauto. }
    unfold factorises. splits.
    + intros s Hs. specialize (HI s Hs). splits; [eapply IInv_not_bad; eauto|eapply IInv_no_race; eauto|eapply IInv_progress; eauto].
    + eapply no_infinite; eauto.
    + eapply exec_exists; eauto.
    + intros x' Hx. eapply exec_ichol; eauto.
  - intros HC x' Hx. apply (exec_ichol fms quo root n Lp Li CP P PO x HX) in Hx.
    destruct (C139_ic0_serial V _ fms quo root n Lp Li x CP HX) as (y & -> & HY). f_equal. eapply ichol_unique; eauto.
Qed.

Lemma edge_lt n Lp Li u v : wf_csc n Lp Li -> edge n Lp Li u v -> u < n /\ v < n.
Proof.
  intros (W1 & W2 & W3 & W4 & W5) (Hu & (j & Hj & <-) & _). split; auto. apply W5.
  assert (Lp.[S u] <= Lp.[n]) by (apply (mono_le (aget Lp) n); auto; lia). lia.
Qed.

Lemma edge_irrefl n Lp Li u : ~ edge n Lp Li u u. Proof. intros (_ & _ & ?). auto. Qed.

Theorem C140_ic_levelset :
  forall (V : Type) (DV : Dflt V) fms quo root n Lp Li (x : list V) k levelPtr levelSet,
  chol_pattern n Lp Li -> Lp.[n] <= length x ->
  level_partition n k levelPtr levelSet -> level_ordered (edge n Lp Li) k levelPtr levelSet ->
  k < length levelPtr -> n <= length levelSet ->
  exists O, ic_levelset Lp Li k levelPtr levelSet = Ok O /\
    factorises fms quo root n Lp Li x O /\ like_serial fms quo root n Lp Li x O.
Proof.
  intros V DV fms quo root n Lp Li x k lp ls CP HX LP LO L1 L2. unfold ic_levelset.
  rewrite (levelset_prog_ok n k lp ls LP L1 L2). cbn [bind]. apply prog_factorises; auto. destruct CP as (W & _). apply prog_ok_nodes.
  - intros u v. now apply edge_lt.
  - intros u. apply edge_irrefl.
  - now apply level_parts.
Qed.
Print Assumptions C140_ic_levelset.

Theorem C140_ic_lbc :
  forall (V : Type) (DV : Dflt V) fms quo root n Lp Li (x : list V) level_no level_ptr par_ptr partition,
  chol_pattern n Lp Li -> Lp.[n] <= length x ->
  valid_schedule n (edge n Lp Li) level_no level_ptr par_ptr partition ->
  exists O, ic_lbc Lp Li level_no level_ptr par_ptr partition = Ok O /\
    factorises fms quo root n Lp Li x O /\ like_serial fms quo root n Lp Li x O.
Proof.
  intros V DV fms quo root n Lp Li x no clp cpp cnp CP HX VS. unfold ic_lbc.
  rewrite (lbc_prog_ok _ _ _ _ _ _ VS). cbn [bind]. apply prog_factorises; auto. destruct CP as (W & _). apply prog_ok_nodes; auto.
  - intros u v. now apply edge_lt.
  - intros u. apply edge_irrefl.
Qed.
Print Assumptions C140_ic_lbc.

Theorem C140_ic_group_lbc :
  forall (V : Type) (DV : Dflt V) fms quo root n ng Lp Li (x : list V) level_no level_ptr par_ptr partition groupPtr groupSet,
  chol_pattern n Lp Li -> Lp.[n] <= length x ->
  group_partition n ng groupPtr groupSet -> group_ordered (edge n Lp Li) ng groupPtr groupSet ->
  ng < length groupPtr -> n <= length groupSet ->
  valid_schedule ng (quotient (edge n Lp Li) ng groupPtr groupSet) level_no level_ptr par_ptr partition ->
  exists O, ic_group_lbc Lp Li level_no level_ptr par_ptr partition groupPtr groupSet = Ok O /\
    factorises fms quo root n Lp Li x O /\ like_serial fms quo root n Lp Li x O.
Proof.
  intros V DV fms quo root n ng Lp Li x no clp cpp cnp gp gs CP HX GP GO L1 L2 VS. unfold ic_group_lbc.
  rewrite (group_lbc_prog_ok n ng _ no clp cpp cnp gp gs VS GP L1 L2). cbn [bind]. apply prog_factorises; auto.
  destruct CP as (W & _). apply (prog_ok_groups n ng); auto. intros u v. now apply edge_lt.
Qed.
Print Assumptions C140_ic_group_lbc.

Theorem C140_ic_group_levelset :
  forall (V : Type) (DV : Dflt V) fms quo root n ng Lp Li (x : list V) k levelPtr levelSet groupPtr groupSet,
  chol_pattern n Lp Li -> Lp.[n] <= length x ->
  group_partition n ng groupPtr groupSet -> group_ordered (edge n Lp Li) ng groupPtr groupSet ->
  ng < length groupPtr -> n <= length groupSet ->
  level_partition ng k levelPtr levelSet ->
  level_ordered (quotient (edge n Lp Li) ng groupPtr groupSet) k levelPtr levelSet ->
  k < length levelPtr -> ng <= length levelSet ->
  exists O, ic_group_levelset Lp Li k levelPtr levelSet groupPtr groupSet = Ok O /\
    factorises fms quo root n Lp Li x O /\ like_serial fms quo root n Lp Li x O.
Proof.
  intros V DV fms quo root n ng Lp Li x k lp ls gp gs CP HX GP GO L1 L2 LP LO L3 L4. unfold ic_group_levelset.
  rewrite (group_levelset_prog_ok n ng k lp ls gp gs LP L3 L4 GP L1 L2). cbn [bind]. apply prog_factorises; auto.
  destruct CP as (W & _). apply (prog_ok_groups n ng); auto.
  - intros u v. now apply edge_lt.
  - now apply level_parts.
Qed.
Print Assumptions C140_ic_group_levelset.

(** ** C141.  With rounding the result is not determined. *)

(** follow a list of choices: the thread to move, or the barrier if that thread is done *)
Fixpoint drive {V} (fms : V -> V -> V -> V) quo root (P : iprog) (cs : list nat) (s : istate V) : option (istate V) :=
  match cs with
  | [] => Some s
  | c :: cs' =>
      let '(l, ths, x) := s in
      if l <? length P then
        match nth_error ths c with
        | Some th =>
            if fst th =? length P.[l].[c] then None
            else match ithread_step fms quo root P.[l].[c] th x with
                 | Ok (th', x') => drive fms quo root P cs' (l, upd ths c th', x')
                 | Err _ => None
                 end
        | None =>
            if forallb (fun t => match nth_error ths t with Some th => fst th =? length P.[l].[t] | None => true end) (seq 0 (length ths))
            then drive fms quo root P cs' (S l, ienter P (S l), x) else None
        end
      else None
  end.

Lemma drive_steps {V} (fms : V -> V -> V -> V) quo root P cs : forall s s0 s', i_steps fms quo root P s0 s ->
  drive fms quo root P cs s = Some s' -> i_steps fms quo root P s0 s'.
Proof.
  induction cs as [|c cs IH]; intros s s0 s' H E; [injection E as <-; auto|]. destruct s as [[l ths] x]. cbn [drive] in E.
  destruct (Nat.ltb_spec l (length P)) as [Hl|]; [|discriminate]. destruct (nth_error ths c) as [th|] eqn:Ec.
  - destruct (Nat.eqb_spec (fst th) (length P.[l].[c])) as [|Hn]; [discriminate|].
    destruct (ithread_step _ _ _ _ _ _) as [[th' x']|] eqn:ES; [|discriminate]. eapply IH; [|exact E]. eapply iss_step; [exact H|].
    eapply is_thread; eauto.
  - destruct (forallb _ _) eqn:EF; [|discriminate]. eapply IH; [|exact E]. eapply iss_step; [exact H|]. apply is_barrier; auto.
    intros t th Hth. rewrite forallb_forall in EF. assert (Ht : t < length ths) by (apply nth_error_Some; congruence).
    specialize (EF t). rewrite in_seq, Hth in EF. unfold ithread_done. specialize (EF ltac:(lia)). lia.
Qed.

(** columns {0,2}, {1,2}, {2}; columns 0 and 1 both update the last entry *)
Definition ic_Lp := [0;2;4;5].
Definition ic_Li := [0;2;1;2;2].
Definition ic_x := [4;6;4;2;95]%Z.
(** a subtraction that rounds: one significant decimal digit of numbers below 100 *)
Definition rfms (a b c : Z) : Z := ((a - b * c) / 10 * 10)%Z.

Example ic_pattern : chol_pattern 3 ic_Lp ic_Li.
Proof.
  split; [apply wf_cscb_ok; vm_compute; reflexivity|]. split; [apply lower_trib_ok; vm_compute; reflexivity|].
  split; [apply sorted_colsb_ok; vm_compute; reflexivity|apply diag_firstb_ok; vm_compute; reflexivity].
Qed.

Definition ic_O : iprog := [[[ORoot 0; ODiv 1 0; OUpd 4 1 1]; [ORoot 2; ODiv 3 2; OUpd 4 3 3]]; [[ORoot 4]]].
Example ic_O_is : ic_levelset ic_Lp ic_Li 2 [0;2;3] [0;1;2] = Ok ic_O. Proof. reflexivity. Qed.

Lemma ic_run cs x' : drive rfms Z.div Z.sqrt ic_O cs (i_start ic_O ic_x) = Some (2, [], x') -> i_exec rfms Z.div Z.sqrt ic_O ic_x x'.
Proof. intros E. exists 2, []. split; auto. eapply drive_steps; [constructor|exact E]. Qed.

(** two executions of the level-set kernel on the same input that end differently, although
    the schedule is valid and no access races *)
Theorem C141_rounding_refuted :
  exists (fms : Z -> Z -> Z -> Z) quo root n Lp Li (x : list Z) k levelPtr levelSet O y1 y2,
    chol_pattern n Lp Li /\ Lp.[n] <= length x /\ level_partition n k levelPtr levelSet /\ level_ordered (edge n Lp Li) k levelPtr levelSet /\
    ic_levelset Lp Li k levelPtr levelSet = Ok O /\
    i_exec fms quo root O x y1 /\ i_exec fms quo root O x y2 /\ y1 <> y2.
Proof.
  exists rfms, Z.div, Z.sqrt, 3, ic_Lp, ic_Li, ic_x, 2, [0;2;3], [0;1;2], ic_O, [2;3;2;1;8]%Z, [2;3;2;1;10]%Z.
  split; [apply ic_pattern|]. split; [vm_compute; lia|]. split; [apply level_partitionb_ok; vm_compute; reflexivity|].
  split; [apply (level_orderedb_ok _ (edgeb 3 ic_Lp ic_Li)); [apply edgeb_ok|vm_compute; reflexivity]|].
  split; [reflexivity|]. split; [apply (ic_run [0;0;0;0;0;0;1;1;1;1;1;1;0;0;0;1;1;1;9;0;0;0;9]); vm_compute; reflexivity|].
  split; [apply (ic_run [0;0;0;0;0;0;1;1;1;1;1;1;1;1;1;0;0;0;9;0;0;0;9]); vm_compute; reflexivity|discriminate].
Qed.
Print Assumptions C141_rounding_refuted.

(** ** C142.  The row-wise kernel never subtracts. *)

(** rows in increasing order, none empty *)
Definition sorted_rows (n : nat) (Lp Li : list nat) : Prop :=
  wf_csc n Lp Li /\ sorted_cols n Lp Li /\ forall i, i < n -> Lp.[i] < Lp.[S i].

(** every row: the square root of its last entry, the others divided by it *)
Definition only_scaled {V} `{Dflt V} (quo : V -> V -> V) (root : V -> V) (n : nat) (Lp : list nat) (x y : list V) : Prop :=
  length y = length x /\ (forall k, Lp.[n] <= k -> y.[k] = x.[k]) /\
  forall i k, i < n -> Lp.[i] <= k < Lp.[S i] ->
    y.[k] = let d := root x.[Lp.[S i] - 1] in if k =? Lp.[S i] - 1 then d else quo x.[k] d.

Theorem C142_csr_never_subtracts :
  forall (V : Type) (DV : Dflt V) fms quo root n Lp Li (x : list V),
  sorted_rows n Lp Li -> Lp.[n] <= length x ->
  exists y, spic0_csr fms quo root n Lp Li x = Ok y /\ only_scaled quo root n Lp x y.
Proof.
  intros V DV fms quo root n Lp Li x ((W1 & W2 & W3 & W4 & W5) & SC & NE) HX. apply wp_ok. unfold spic0_csr.
  assert (HM : forall i j, i <= j -> j <= n -> Lp.[i] <= Lp.[j]) by (intros; apply (mono_le (aget Lp) n); auto; lia).
  set (val := fun i k => let d := root x.[Lp.[S i] - 1] in if k =? Lp.[S i] - 1 then d else quo x.[k] d).
  apply (wp_for (fun j y => length y = length x /\ (forall k, Lp.[j] <= k -> y.[k] = x.[k]) /\
     forall i k, i < j -> Lp.[i] <= k < Lp.[S i] -> y.[k] = val i k)); [lia|splits; auto; lia| |].
  2:{ intros y (L & O & F). unfold only_scaled. splits; auto. }
  intros i y Hi (L & O & F). specialize (NE i ltac:(lia)). pose proof (HM (S i) n ltac:(lia) ltac:(lia)) as Hn.
  unfold spic0_csr_row. apply wp_bind. apply wp_rd; [lia|]. replace (Lp.[S i] =? 0) with false by lia.
  apply wp_bind. apply wp_rd; [lia|]. apply wp_bind. apply wp_wr; [lia|]. apply wp_bind. apply wp_rd; [lia|].
  set (e := Lp.[S i] - 1) in *. rewrite (O e) by lia.
  apply wp_bind. apply (wp_for (fun j z => length z = length x /\ z.[e] = root x.[e] /\ (forall k, k < Lp.[i] \/ (j <= k /\ k <> e) -> z.[k] = y.[k]) /\
     (forall k, Lp.[i] <= k < j -> z.[k] = quo x.[k] (root x.[e])))); [lia| | |].
  { rewrite upd_length. splits; auto; try lia; [apply aget_upd_eq; lia|]. intros k Hk. apply aget_upd_ne. lia. }
  { intros m z Hm (L1 & Z1 & Z2 & Z3). apply wp_bind. apply wp_rd; [lia|]. apply wp_bind. apply wp_rd; [lia|]. apply wp_wr; [lia|].
    rewrite upd_length. splits; auto.
    - now rewrite aget_upd_ne by lia.
    - intros k Hk. rewrite aget_upd_ne by lia. apply Z2. lia.
    - intros k Hk. destruct (Nat.eq_dec k m) as [->|]; [|rewrite aget_upd_ne by lia; apply Z3; lia].
      rewrite aget_upd_eq by lia. rewrite Z1, (Z2 m), (O m) by lia. reflexivity. }
  intros z (L1 & Z1 & Z2 & Z3).
  apply (wp_for (fun _ z' => z' = z)); [lia|reflexivity| |].
  - intros m z' Hm ->. assert (Hc : Li.[m] < n) by (apply W5; lia). apply wp_bind. apply wp_rd; [lia|]. apply wp_bind. apply wp_rd; [lia|]. apply wp_bind. apply wp_rd; [lia|].
    apply (wp_for (fun _ z' => z' = z)); [apply W3; auto|reflexivity| |auto].
    intros k z' Hk ->. pose proof (HM (S Li.[m]) n ltac:(lia) ltac:(lia)). apply (wp_for (fun _ z' => z' = z)); [lia|reflexivity| |auto].
    intros l z' Hl ->. apply wp_bind. apply wp_rd; [lia|]. apply wp_bind. apply wp_rd; [lia|].
    destruct (Nat.eqb_spec Li.[l] Li.[k]) as [E|]; [|reflexivity]. apply wp_bind. apply wp_rd; [lia|].
    specialize (SC i l (S l)). destruct (Nat.leb_spec Li.[S l] Li.[k]); [lia|reflexivity].
  - intros z' ->. splits; auto.
    + intros k Hk. rewrite Z2, O by lia. reflexivity.
    + intros i' k Hi' Hk. destruct (Nat.eq_dec i' i) as [->|].
      * unfold val. fold e. destruct (Nat.eqb_spec k e) as [->|]; auto. apply Z3. lia.
      * rewrite Z2; [apply F; auto; lia|]. left. pose proof (HM (S i') i ltac:(lia) ltac:(lia)). lia.
Qed.
Print Assumptions C142_csr_never_subtracts.

(** so it does not factorise: the factor of [[169,65],[65,169]] has the rows 13 and 5,12; the
    kernel stores 13 and 5,13 (every division and square root here is exact) *)
Theorem C142_csr_factor_refuted :
  exists (fms : Z -> Z -> Z -> Z) quo root n Lp Li x y,
    sorted_rows n Lp Li /\ Lp.[n] <= length x /\ (forall a b c, fms a b c = (a - b * c)%Z) /\ (forall a b, quo a b = (a / b)%Z) /\
    (forall a, root (a * a)%Z = Z.abs a) /\
    spic0_csr fms quo root n Lp Li x = Ok y /\ (y.[1] * y.[1] + y.[2] * y.[2] <> x.[2])%Z.
Proof.
  exists (fun a b c => (a - b * c)%Z), Z.div, Z.sqrt, 2, [0;1;3], [0;0;1], [169;65;169]%Z, [13;5;13]%Z.
  split; [split; [apply wf_cscb_ok; vm_compute; reflexivity|split; [apply sorted_colsb_ok; vm_compute; reflexivity|]]|].
  - intros i Hi. destruct i as [|[|?]]; [vm_compute; lia|vm_compute; lia|lia].
  - splits; auto; try (vm_compute; discriminate). intros a. rewrite <- (Z.abs_square a). apply Z.sqrt_square. lia.
Qed.
Print Assumptions C142_csr_factor_refuted.

(** ** The hypotheses are met *)

(** unit pivots: exact integer arithmetic on L = [[1],[3,1],[2,.,1]] *)
Example C139_nonvacuous :
  let fms := fun a b c : Z => (a - b * c)%Z in let quo := fun a b : Z => a in let root := fun a : Z => a in
  let Lp := [0;3;4;5] in let Li := [0;1;2;1;2] in let x := [1;3;2;10;5]%Z in let y := [1;3;2;1;1]%Z in
  chol_pattern 3 Lp Li /\ ic0_csc fms quo root 3 Lp Li x = Ok y /\
  (forall a b c, Z.add (fms a b c) (b * c) = a) /\ (forall s, s = 1%Z -> (quo s (root s) * quo s (root s) = s)%Z) /\
  (forall a s, s = 1%Z -> (quo s (root s) * quo a (quo s (root s)) = a)%Z) /\
  product_terms 3 Lp Li 1 1 [(1,1);(3,3)].
Proof.
  cbv zeta. split.
  { split; [apply wf_cscb_ok; vm_compute; reflexivity|]. split; [apply lower_trib_ok; vm_compute; reflexivity|].
    split; [apply sorted_colsb_ok; vm_compute; reflexivity|apply diag_firstb_ok; vm_compute; reflexivity]. }
  splits; try reflexivity; try (intros; lia). split.
  - repeat constructor; simpl; intuition discriminate.
  - intros m l. split.
    + intros [E|[E|[]]]; injection E as <- <-; [exists 0|exists 1]; vm_compute; splits; lia.
    + intros (u & Hu & Hm & Hl & Em & El). unfold aget in *. destruct u as [|[|[|?]]]; simpl in *; try lia.
      * destruct m as [|[|[|?]]]; simpl in *; try lia. destruct l as [|[|[|?]]]; simpl in *; try lia. auto.
      * assert (m = 3) by lia. assert (l = 3) by lia. subst. auto.
      * assert (m = 4) by lia. subst. discriminate Em.
Qed.

Example C140_nonvacuous : exists O, ic_lbc ic_Lp ic_Li 2 [0;2;3] [0;1;2;3] [0;1;2] = Ok O /\
  factorises rfms Z.div Z.sqrt 3 ic_Lp ic_Li ic_x O.
Proof.
  destruct (C140_ic_lbc Z _ rfms Z.div Z.sqrt 3 ic_Lp ic_Li ic_x 2 [0;2;3] [0;1;2;3] [0;1;2]) as (O & E & F & _).
  - apply ic_pattern.
  - vm_compute. lia.
  - apply (valid_scheduleb_ok _ _ (edgeb 3 ic_Lp ic_Li)); [apply edgeb_ok|vm_compute; reflexivity].
  - eauto.
Qed.
