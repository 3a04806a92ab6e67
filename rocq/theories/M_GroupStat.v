(** Model of the statistics of the grouped classes: SpTrsvCSR_Grouping_H2 (example/sptrsv_demo_utils.h 665-705) and SpicoCSC_Grouping_H2
    (example/old/spic0_demo_utils.h 403-444), which are the same. *)
From Verif Require Import Base.

(** sptrsv_demo_utils.h 665-680, spic0_demo_utils.h 403-418: averWsize; numerator and denominator.  [Rp]: row pointers *)
Definition averWsize_group (level_no : nat) (Rp level_ptr part_ptr node_ptr groupPtr groupSet : list nat) : res (nat * nat) :=
  part_no <- rd level_ptr level_no ;;
  ncol <- for_ 0 part_no (fun i ncol =>
    a <- rd part_ptr i ;; b <- rd part_ptr (S i) ;;
    for_ a b (fun j ncol =>
      k <- rd node_ptr j ;;
      l0 <- rd groupPtr k ;; l1 <- rd groupPtr (S k) ;;
      for_ l0 l1 (fun l ncol => k1 <- rd groupSet l ;; q <- rd Rp (S k1) ;; p <- rd Rp k1 ;; Ok (ncol + (q - p))) ncol) ncol) 0 ;;
  Ok (ncol, part_no).

(** sptrsv_demo_utils.h 682-706, spic0_demo_utils.h 420-444: consecutiveRatio; numerator sum and denominator t_sum (ints).  The last
    position of an empty first part is -1 *)
Definition consecutiveRatio_group (level_no : nat) (level_ptr part_ptr node_ptr groupPtr : list nat) : res (Z * Z) :=
  part_no <- rd level_ptr level_no ;;
  for_ 0 part_no (fun i '(sum, t_sum) =>
    a <- rd part_ptr i ;; b <- rd part_ptr (S i) ;;
    '(sum, t_sum) <- for_ a (b - 1) (fun k1 '(sum, t_sum) =>
      y <- rd node_ptr (S k1) ;; x <- rd node_ptr k1 ;;
      g1 <- rd groupPtr (S k1) ;; g0 <- rd groupPtr k1 ;;
      let d := (Z.of_nat g1 - Z.of_nat g0)%Z in
      if y =? S x then Ok ((sum + d)%Z, (t_sum + d)%Z) else Ok ((sum + (d - 1))%Z, (t_sum + d)%Z)) (sum, t_sum) ;;
    g1 <- rd groupPtr b ;;
    g0 <- (if b =? 0 then Err OOB else rd groupPtr (b - 1)) ;;
    let sum := (sum + (Z.of_nat g1 - Z.of_nat g0))%Z in
    let t_sum := (t_sum + (Z.of_nat g1 - Z.of_nat g1))%Z in
    Ok (sum, (t_sum - 1)%Z)) (0%Z, 0%Z).
