(** GENERATED by tools/gen.py from /repo/internal/lexer/transitiontable.go and
    /repo/internal/lexer/acttab.go - do not edit by hand.

    [trans_tab] : transitiontable.go:10-2731 (TransTab).  Row number s is the body of the
    function [TransTab[s]]: the list of its [case lo <= r && r <= hi: return t] clauses in
    source order, and the target of its [default:] clause if there is one ([None] stands for
    the final [return NoState], i.e. -1).
    [act_tab] : acttab.go:22-587 (ActTab).  Row number s is (Accept, Ignore <> ""). *)
From Coq Require Import List NArith ZArith.
Import ListNotations.

Definition trans_row : Type := list (N * N * nat) * option nat.

Definition trans_tab : list trans_row := [
  (* S0, transitiontable.go:13 *) ([(9%N,9%N,1); (10%N,10%N,1); (13%N,13%N,1); (32%N,32%N,1); (34%N,34%N,2); (35%N,35%N,3); (44%N,44%N,4); (45%N,45%N,5); (46%N,46%N,6); (47%N,47%N,7); (48%N,57%N,8); (58%N,58%N,9); (59%N,59%N,10); (60%N,60%N,11); (61%N,61%N,12); (65%N,67%N,13); (68%N,68%N,14); (69%N,69%N,15); (70%N,70%N,13); (71%N,71%N,16); (72%N,77%N,13); (78%N,78%N,17); (79%N,82%N,13); (83%N,83%N,18); (84%N,90%N,13); (91%N,91%N,19); (93%N,93%N,20); (95%N,95%N,21); (97%N,99%N,13); (100%N,100%N,22); (101%N,101%N,23); (102%N,102%N,13); (103%N,103%N,24); (104%N,109%N,13); (110%N,110%N,25); (111%N,114%N,13); (115%N,115%N,26); (116%N,122%N,13); (123%N,123%N,27); (125%N,125%N,28); (128%N,65532%N,29); (65534%N,1114111%N,29)], None);
  (* S1, transitiontable.go:103 *) ([], None);
  (* S2, transitiontable.go:109 *) ([(1%N,33%N,30); (34%N,34%N,31); (35%N,91%N,30); (92%N,92%N,32); (93%N,127%N,30); (128%N,65532%N,33); (65534%N,1114111%N,33)], None);
  (* S3, transitiontable.go:129 *) ([(10%N,10%N,34)], Some 3);
  (* S4, transitiontable.go:138 *) ([], None);
  (* S5, transitiontable.go:144 *) ([(45%N,45%N,35); (46%N,46%N,6); (48%N,57%N,8); (62%N,62%N,36)], None);
  (* S6, transitiontable.go:158 *) ([(48%N,57%N,37)], None);
  (* S7, transitiontable.go:166 *) ([(42%N,42%N,38); (47%N,47%N,39)], None);
  (* S8, transitiontable.go:176 *) ([(46%N,46%N,40); (48%N,57%N,8)], None);
  (* S9, transitiontable.go:186 *) ([], None);
  (* S10, transitiontable.go:192 *) ([], None);
  (* S11, transitiontable.go:198 *) ([(1%N,59%N,41); (60%N,60%N,42); (61%N,61%N,41); (62%N,62%N,43); (63%N,255%N,41)], None);
  (* S12, transitiontable.go:214 *) ([], None);
  (* S13, transitiontable.go:220 *) ([(48%N,57%N,44); (65%N,90%N,13); (95%N,95%N,21); (97%N,122%N,13); (128%N,65532%N,29); (65534%N,1114111%N,29)], None);
  (* S14, transitiontable.go:238 *) ([(48%N,57%N,44); (65%N,72%N,13); (73%N,73%N,45); (74%N,90%N,13); (95%N,95%N,21); (97%N,104%N,13); (105%N,105%N,46); (106%N,122%N,13); (128%N,65532%N,29); (65534%N,1114111%N,29)], None);
  (* S15, transitiontable.go:264 *) ([(48%N,57%N,44); (65%N,67%N,13); (68%N,68%N,47); (69%N,90%N,13); (95%N,95%N,21); (97%N,99%N,13); (100%N,100%N,48); (101%N,122%N,13); (128%N,65532%N,29); (65534%N,1114111%N,29)], None);
  (* S16, transitiontable.go:290 *) ([(48%N,57%N,44); (65%N,81%N,13); (82%N,82%N,49); (83%N,90%N,13); (95%N,95%N,21); (97%N,113%N,13); (114%N,114%N,50); (115%N,122%N,13); (128%N,65532%N,29); (65534%N,1114111%N,29)], None);
  (* S17, transitiontable.go:316 *) ([(48%N,57%N,44); (65%N,78%N,13); (79%N,79%N,51); (80%N,90%N,13); (95%N,95%N,21); (97%N,110%N,13); (111%N,111%N,52); (112%N,122%N,13); (128%N,65532%N,29); (65534%N,1114111%N,29)], None);
  (* S18, transitiontable.go:342 *) ([(48%N,57%N,44); (65%N,83%N,13); (84%N,84%N,53); (85%N,85%N,54); (86%N,90%N,13); (95%N,95%N,21); (97%N,115%N,13); (116%N,116%N,55); (117%N,117%N,56); (118%N,122%N,13); (128%N,65532%N,29); (65534%N,1114111%N,29)], None);
  (* S19, transitiontable.go:372 *) ([], None);
  (* S20, transitiontable.go:378 *) ([], None);
  (* S21, transitiontable.go:384 *) ([(48%N,57%N,44); (65%N,90%N,13); (95%N,95%N,21); (97%N,122%N,13); (128%N,65532%N,29); (65534%N,1114111%N,29)], None);
  (* S22, transitiontable.go:402 *) ([(48%N,57%N,44); (65%N,90%N,13); (95%N,95%N,21); (97%N,104%N,13); (105%N,105%N,57); (106%N,122%N,13); (128%N,65532%N,29); (65534%N,1114111%N,29)], None);
  (* S23, transitiontable.go:424 *) ([(48%N,57%N,44); (65%N,90%N,13); (95%N,95%N,21); (97%N,99%N,13); (100%N,100%N,58); (101%N,122%N,13); (128%N,65532%N,29); (65534%N,1114111%N,29)], None);
  (* S24, transitiontable.go:446 *) ([(48%N,57%N,44); (65%N,90%N,13); (95%N,95%N,21); (97%N,113%N,13); (114%N,114%N,59); (115%N,122%N,13); (128%N,65532%N,29); (65534%N,1114111%N,29)], None);
  (* S25, transitiontable.go:468 *) ([(48%N,57%N,44); (65%N,90%N,13); (95%N,95%N,21); (97%N,110%N,13); (111%N,111%N,60); (112%N,122%N,13); (128%N,65532%N,29); (65534%N,1114111%N,29)], None);
  (* S26, transitiontable.go:490 *) ([(48%N,57%N,44); (65%N,90%N,13); (95%N,95%N,21); (97%N,115%N,13); (116%N,116%N,61); (117%N,117%N,62); (118%N,122%N,13); (128%N,65532%N,29); (65534%N,1114111%N,29)], None);
  (* S27, transitiontable.go:514 *) ([], None);
  (* S28, transitiontable.go:520 *) ([], None);
  (* S29, transitiontable.go:526 *) ([(48%N,57%N,44); (65%N,90%N,13); (95%N,95%N,21); (97%N,122%N,13); (128%N,65532%N,29); (65534%N,1114111%N,29)], None);
  (* S30, transitiontable.go:544 *) ([(1%N,33%N,30); (34%N,34%N,31); (35%N,91%N,30); (92%N,92%N,32); (93%N,127%N,30); (128%N,65532%N,33); (65534%N,1114111%N,33)], None);
  (* S31, transitiontable.go:564 *) ([], None);
  (* S32, transitiontable.go:570 *) ([(1%N,33%N,63); (34%N,34%N,64); (35%N,91%N,63); (92%N,92%N,64); (93%N,127%N,63); (128%N,65532%N,65); (65534%N,1114111%N,65)], None);
  (* S33, transitiontable.go:590 *) ([(1%N,33%N,30); (34%N,34%N,31); (35%N,91%N,30); (92%N,92%N,32); (93%N,127%N,30); (128%N,65532%N,33); (65534%N,1114111%N,33)], None);
  (* S34, transitiontable.go:610 *) ([], None);
  (* S35, transitiontable.go:616 *) ([], None);
  (* S36, transitiontable.go:622 *) ([], None);
  (* S37, transitiontable.go:628 *) ([(48%N,57%N,37)], None);
  (* S38, transitiontable.go:636 *) ([(42%N,42%N,66)], Some 38);
  (* S39, transitiontable.go:645 *) ([(10%N,10%N,34)], Some 39);
  (* S40, transitiontable.go:654 *) ([(48%N,57%N,67)], None);
  (* S41, transitiontable.go:662 *) ([(1%N,59%N,41); (60%N,60%N,42); (61%N,61%N,41); (62%N,62%N,43); (63%N,255%N,41)], None);
  (* S42, transitiontable.go:678 *) ([(1%N,59%N,68); (61%N,61%N,68); (63%N,255%N,68)], None);
  (* S43, transitiontable.go:690 *) ([], None);
  (* S44, transitiontable.go:696 *) ([(48%N,57%N,44); (65%N,90%N,13); (95%N,95%N,21); (97%N,122%N,13); (128%N,65532%N,29); (65534%N,1114111%N,29)], None);
  (* S45, transitiontable.go:714 *) ([(48%N,57%N,44); (65%N,70%N,13); (71%N,71%N,69); (72%N,90%N,13); (95%N,95%N,21); (97%N,122%N,13); (128%N,65532%N,29); (65534%N,1114111%N,29)], None);
  (* S46, transitiontable.go:736 *) ([(48%N,57%N,44); (65%N,70%N,13); (71%N,71%N,70); (72%N,90%N,13); (95%N,95%N,21); (97%N,102%N,13); (103%N,103%N,71); (104%N,122%N,13); (128%N,65532%N,29); (65534%N,1114111%N,29)], None);
  (* S47, transitiontable.go:762 *) ([(48%N,57%N,44); (65%N,70%N,13); (71%N,71%N,72); (72%N,90%N,13); (95%N,95%N,21); (97%N,122%N,13); (128%N,65532%N,29); (65534%N,1114111%N,29)], None);
  (* S48, transitiontable.go:784 *) ([(48%N,57%N,44); (65%N,90%N,13); (95%N,95%N,21); (97%N,102%N,13); (103%N,103%N,73); (104%N,122%N,13); (128%N,65532%N,29); (65534%N,1114111%N,29)], None);
  (* S49, transitiontable.go:806 *) ([(48%N,57%N,44); (65%N,65%N,74); (66%N,90%N,13); (95%N,95%N,21); (97%N,122%N,13); (128%N,65532%N,29); (65534%N,1114111%N,29)], None);
  (* S50, transitiontable.go:826 *) ([(48%N,57%N,44); (65%N,90%N,13); (95%N,95%N,21); (97%N,97%N,75); (98%N,122%N,13); (128%N,65532%N,29); (65534%N,1114111%N,29)], None);
  (* S51, transitiontable.go:846 *) ([(48%N,57%N,44); (65%N,67%N,13); (68%N,68%N,76); (69%N,90%N,13); (95%N,95%N,21); (97%N,122%N,13); (128%N,65532%N,29); (65534%N,1114111%N,29)], None);
  (* S52, transitiontable.go:868 *) ([(48%N,57%N,44); (65%N,90%N,13); (95%N,95%N,21); (97%N,99%N,13); (100%N,100%N,77); (101%N,122%N,13); (128%N,65532%N,29); (65534%N,1114111%N,29)], None);
  (* S53, transitiontable.go:890 *) ([(48%N,57%N,44); (65%N,81%N,13); (82%N,82%N,78); (83%N,90%N,13); (95%N,95%N,21); (97%N,122%N,13); (128%N,65532%N,29); (65534%N,1114111%N,29)], None);
  (* S54, transitiontable.go:912 *) ([(48%N,57%N,44); (65%N,65%N,13); (66%N,66%N,79); (67%N,90%N,13); (95%N,95%N,21); (97%N,122%N,13); (128%N,65532%N,29); (65534%N,1114111%N,29)], None);
  (* S55, transitiontable.go:934 *) ([(48%N,57%N,44); (65%N,90%N,13); (95%N,95%N,21); (97%N,113%N,13); (114%N,114%N,80); (115%N,122%N,13); (128%N,65532%N,29); (65534%N,1114111%N,29)], None);
  (* S56, transitiontable.go:956 *) ([(48%N,57%N,44); (65%N,90%N,13); (95%N,95%N,21); (97%N,97%N,13); (98%N,98%N,81); (99%N,122%N,13); (128%N,65532%N,29); (65534%N,1114111%N,29)], None);
  (* S57, transitiontable.go:978 *) ([(48%N,57%N,44); (65%N,70%N,13); (71%N,71%N,82); (72%N,90%N,13); (95%N,95%N,21); (97%N,102%N,13); (103%N,103%N,83); (104%N,122%N,13); (128%N,65532%N,29); (65534%N,1114111%N,29)], None);
  (* S58, transitiontable.go:1004 *) ([(48%N,57%N,44); (65%N,90%N,13); (95%N,95%N,21); (97%N,102%N,13); (103%N,103%N,84); (104%N,122%N,13); (128%N,65532%N,29); (65534%N,1114111%N,29)], None);
  (* S59, transitiontable.go:1026 *) ([(48%N,57%N,44); (65%N,90%N,13); (95%N,95%N,21); (97%N,97%N,85); (98%N,122%N,13); (128%N,65532%N,29); (65534%N,1114111%N,29)], None);
  (* S60, transitiontable.go:1046 *) ([(48%N,57%N,44); (65%N,90%N,13); (95%N,95%N,21); (97%N,99%N,13); (100%N,100%N,86); (101%N,122%N,13); (128%N,65532%N,29); (65534%N,1114111%N,29)], None);
  (* S61, transitiontable.go:1068 *) ([(48%N,57%N,44); (65%N,90%N,13); (95%N,95%N,21); (97%N,113%N,13); (114%N,114%N,87); (115%N,122%N,13); (128%N,65532%N,29); (65534%N,1114111%N,29)], None);
  (* S62, transitiontable.go:1090 *) ([(48%N,57%N,44); (65%N,90%N,13); (95%N,95%N,21); (97%N,97%N,13); (98%N,98%N,88); (99%N,122%N,13); (128%N,65532%N,29); (65534%N,1114111%N,29)], None);
  (* S63, transitiontable.go:1112 *) ([(1%N,33%N,30); (34%N,34%N,31); (35%N,91%N,30); (92%N,92%N,32); (93%N,127%N,30); (128%N,65532%N,33); (65534%N,1114111%N,33)], None);
  (* S64, transitiontable.go:1132 *) ([(1%N,33%N,30); (34%N,34%N,31); (35%N,91%N,30); (92%N,92%N,32); (93%N,127%N,30); (128%N,65532%N,33); (65534%N,1114111%N,33)], None);
  (* S65, transitiontable.go:1152 *) ([(1%N,33%N,30); (34%N,34%N,31); (35%N,91%N,30); (92%N,92%N,32); (93%N,127%N,30); (128%N,65532%N,33); (65534%N,1114111%N,33)], None);
  (* S66, transitiontable.go:1172 *) ([(42%N,42%N,66); (47%N,47%N,89)], Some 38);
  (* S67, transitiontable.go:1183 *) ([(48%N,57%N,67)], None);
  (* S68, transitiontable.go:1191 *) ([(1%N,59%N,68); (61%N,61%N,68); (62%N,62%N,90); (63%N,255%N,68)], None);
  (* S69, transitiontable.go:1205 *) ([(48%N,57%N,44); (65%N,81%N,13); (82%N,82%N,91); (83%N,90%N,13); (95%N,95%N,21); (97%N,122%N,13); (128%N,65532%N,29); (65534%N,1114111%N,29)], None);
  (* S70, transitiontable.go:1227 *) ([(48%N,57%N,44); (65%N,90%N,13); (95%N,95%N,21); (97%N,113%N,13); (114%N,114%N,92); (115%N,122%N,13); (128%N,65532%N,29); (65534%N,1114111%N,29)], None);
  (* S71, transitiontable.go:1249 *) ([(48%N,57%N,44); (65%N,90%N,13); (95%N,95%N,21); (97%N,113%N,13); (114%N,114%N,93); (115%N,122%N,13); (128%N,65532%N,29); (65534%N,1114111%N,29)], None);
  (* S72, transitiontable.go:1271 *) ([(48%N,57%N,44); (65%N,68%N,13); (69%N,69%N,94); (70%N,90%N,13); (95%N,95%N,21); (97%N,122%N,13); (128%N,65532%N,29); (65534%N,1114111%N,29)], None);
  (* S73, transitiontable.go:1293 *) ([(48%N,57%N,44); (65%N,90%N,13); (95%N,95%N,21); (97%N,100%N,13); (101%N,101%N,94); (102%N,122%N,13); (128%N,65532%N,29); (65534%N,1114111%N,29)], None);
  (* S74, transitiontable.go:1315 *) ([(48%N,57%N,44); (65%N,79%N,13); (80%N,80%N,95); (81%N,90%N,13); (95%N,95%N,21); (97%N,122%N,13); (128%N,65532%N,29); (65534%N,1114111%N,29)], None);
  (* S75, transitiontable.go:1337 *) ([(48%N,57%N,44); (65%N,90%N,13); (95%N,95%N,21); (97%N,111%N,13); (112%N,112%N,96); (113%N,122%N,13); (128%N,65532%N,29); (65534%N,1114111%N,29)], None);
  (* S76, transitiontable.go:1359 *) ([(48%N,57%N,44); (65%N,68%N,13); (69%N,69%N,97); (70%N,90%N,13); (95%N,95%N,21); (97%N,122%N,13); (128%N,65532%N,29); (65534%N,1114111%N,29)], None);
  (* S77, transitiontable.go:1381 *) ([(48%N,57%N,44); (65%N,90%N,13); (95%N,95%N,21); (97%N,100%N,13); (101%N,101%N,97); (102%N,122%N,13); (128%N,65532%N,29); (65534%N,1114111%N,29)], None);
  (* S78, transitiontable.go:1403 *) ([(48%N,57%N,44); (65%N,72%N,13); (73%N,73%N,98); (74%N,90%N,13); (95%N,95%N,21); (97%N,122%N,13); (128%N,65532%N,29); (65534%N,1114111%N,29)], None);
  (* S79, transitiontable.go:1425 *) ([(48%N,57%N,44); (65%N,70%N,13); (71%N,71%N,99); (72%N,90%N,13); (95%N,95%N,21); (97%N,122%N,13); (128%N,65532%N,29); (65534%N,1114111%N,29)], None);
  (* S80, transitiontable.go:1447 *) ([(48%N,57%N,44); (65%N,90%N,13); (95%N,95%N,21); (97%N,104%N,13); (105%N,105%N,100); (106%N,122%N,13); (128%N,65532%N,29); (65534%N,1114111%N,29)], None);
  (* S81, transitiontable.go:1469 *) ([(48%N,57%N,44); (65%N,70%N,13); (71%N,71%N,101); (72%N,90%N,13); (95%N,95%N,21); (97%N,102%N,13); (103%N,103%N,102); (104%N,122%N,13); (128%N,65532%N,29); (65534%N,1114111%N,29)], None);
  (* S82, transitiontable.go:1495 *) ([(48%N,57%N,44); (65%N,90%N,13); (95%N,95%N,21); (97%N,113%N,13); (114%N,114%N,103); (115%N,122%N,13); (128%N,65532%N,29); (65534%N,1114111%N,29)], None);
  (* S83, transitiontable.go:1517 *) ([(48%N,57%N,44); (65%N,90%N,13); (95%N,95%N,21); (97%N,113%N,13); (114%N,114%N,104); (115%N,122%N,13); (128%N,65532%N,29); (65534%N,1114111%N,29)], None);
  (* S84, transitiontable.go:1539 *) ([(48%N,57%N,44); (65%N,90%N,13); (95%N,95%N,21); (97%N,100%N,13); (101%N,101%N,94); (102%N,122%N,13); (128%N,65532%N,29); (65534%N,1114111%N,29)], None);
  (* S85, transitiontable.go:1561 *) ([(48%N,57%N,44); (65%N,90%N,13); (95%N,95%N,21); (97%N,111%N,13); (112%N,112%N,105); (113%N,122%N,13); (128%N,65532%N,29); (65534%N,1114111%N,29)], None);
  (* S86, transitiontable.go:1583 *) ([(48%N,57%N,44); (65%N,90%N,13); (95%N,95%N,21); (97%N,100%N,13); (101%N,101%N,97); (102%N,122%N,13); (128%N,65532%N,29); (65534%N,1114111%N,29)], None);
  (* S87, transitiontable.go:1605 *) ([(48%N,57%N,44); (65%N,90%N,13); (95%N,95%N,21); (97%N,104%N,13); (105%N,105%N,106); (106%N,122%N,13); (128%N,65532%N,29); (65534%N,1114111%N,29)], None);
  (* S88, transitiontable.go:1627 *) ([(48%N,57%N,44); (65%N,70%N,13); (71%N,71%N,107); (72%N,90%N,13); (95%N,95%N,21); (97%N,102%N,13); (103%N,103%N,108); (104%N,122%N,13); (128%N,65532%N,29); (65534%N,1114111%N,29)], None);
  (* S89, transitiontable.go:1653 *) ([], None);
  (* S90, transitiontable.go:1659 *) ([(1%N,59%N,41); (60%N,60%N,42); (61%N,61%N,41); (62%N,62%N,43); (63%N,255%N,41)], None);
  (* S91, transitiontable.go:1675 *) ([(48%N,57%N,44); (65%N,65%N,109); (66%N,90%N,13); (95%N,95%N,21); (97%N,122%N,13); (128%N,65532%N,29); (65534%N,1114111%N,29)], None);
  (* S92, transitiontable.go:1695 *) ([(48%N,57%N,44); (65%N,90%N,13); (95%N,95%N,21); (97%N,97%N,110); (98%N,122%N,13); (128%N,65532%N,29); (65534%N,1114111%N,29)], None);
  (* S93, transitiontable.go:1715 *) ([(48%N,57%N,44); (65%N,90%N,13); (95%N,95%N,21); (97%N,97%N,111); (98%N,122%N,13); (128%N,65532%N,29); (65534%N,1114111%N,29)], None);
  (* S94, transitiontable.go:1735 *) ([(48%N,57%N,44); (65%N,90%N,13); (95%N,95%N,21); (97%N,122%N,13); (128%N,65532%N,29); (65534%N,1114111%N,29)], None);
  (* S95, transitiontable.go:1753 *) ([(48%N,57%N,44); (65%N,71%N,13); (72%N,72%N,112); (73%N,90%N,13); (95%N,95%N,21); (97%N,122%N,13); (128%N,65532%N,29); (65534%N,1114111%N,29)], None);
  (* S96, transitiontable.go:1775 *) ([(48%N,57%N,44); (65%N,90%N,13); (95%N,95%N,21); (97%N,103%N,13); (104%N,104%N,112); (105%N,122%N,13); (128%N,65532%N,29); (65534%N,1114111%N,29)], None);
  (* S97, transitiontable.go:1797 *) ([(48%N,57%N,44); (65%N,90%N,13); (95%N,95%N,21); (97%N,122%N,13); (128%N,65532%N,29); (65534%N,1114111%N,29)], None);
  (* S98, transitiontable.go:1815 *) ([(48%N,57%N,44); (65%N,66%N,13); (67%N,67%N,113); (68%N,90%N,13); (95%N,95%N,21); (97%N,122%N,13); (128%N,65532%N,29); (65534%N,1114111%N,29)], None);
  (* S99, transitiontable.go:1837 *) ([(48%N,57%N,44); (65%N,81%N,13); (82%N,82%N,114); (83%N,90%N,13); (95%N,95%N,21); (97%N,122%N,13); (128%N,65532%N,29); (65534%N,1114111%N,29)], None);
  (* S100, transitiontable.go:1859 *) ([(48%N,57%N,44); (65%N,90%N,13); (95%N,95%N,21); (97%N,98%N,13); (99%N,99%N,115); (100%N,122%N,13); (128%N,65532%N,29); (65534%N,1114111%N,29)], None);
  (* S101, transitiontable.go:1881 *) ([(48%N,57%N,44); (65%N,90%N,13); (95%N,95%N,21); (97%N,113%N,13); (114%N,114%N,116); (115%N,122%N,13); (128%N,65532%N,29); (65534%N,1114111%N,29)], None);
  (* S102, transitiontable.go:1903 *) ([(48%N,57%N,44); (65%N,90%N,13); (95%N,95%N,21); (97%N,113%N,13); (114%N,114%N,117); (115%N,122%N,13); (128%N,65532%N,29); (65534%N,1114111%N,29)], None);
  (* S103, transitiontable.go:1925 *) ([(48%N,57%N,44); (65%N,90%N,13); (95%N,95%N,21); (97%N,97%N,118); (98%N,122%N,13); (128%N,65532%N,29); (65534%N,1114111%N,29)], None);
  (* S104, transitiontable.go:1945 *) ([(48%N,57%N,44); (65%N,90%N,13); (95%N,95%N,21); (97%N,97%N,119); (98%N,122%N,13); (128%N,65532%N,29); (65534%N,1114111%N,29)], None);
  (* S105, transitiontable.go:1965 *) ([(48%N,57%N,44); (65%N,90%N,13); (95%N,95%N,21); (97%N,103%N,13); (104%N,104%N,112); (105%N,122%N,13); (128%N,65532%N,29); (65534%N,1114111%N,29)], None);
  (* S106, transitiontable.go:1987 *) ([(48%N,57%N,44); (65%N,90%N,13); (95%N,95%N,21); (97%N,98%N,13); (99%N,99%N,120); (100%N,122%N,13); (128%N,65532%N,29); (65534%N,1114111%N,29)], None);
  (* S107, transitiontable.go:2009 *) ([(48%N,57%N,44); (65%N,90%N,13); (95%N,95%N,21); (97%N,113%N,13); (114%N,114%N,121); (115%N,122%N,13); (128%N,65532%N,29); (65534%N,1114111%N,29)], None);
  (* S108, transitiontable.go:2031 *) ([(48%N,57%N,44); (65%N,90%N,13); (95%N,95%N,21); (97%N,113%N,13); (114%N,114%N,122); (115%N,122%N,13); (128%N,65532%N,29); (65534%N,1114111%N,29)], None);
  (* S109, transitiontable.go:2053 *) ([(48%N,57%N,44); (65%N,79%N,13); (80%N,80%N,123); (81%N,90%N,13); (95%N,95%N,21); (97%N,122%N,13); (128%N,65532%N,29); (65534%N,1114111%N,29)], None);
  (* S110, transitiontable.go:2075 *) ([(48%N,57%N,44); (65%N,90%N,13); (95%N,95%N,21); (97%N,111%N,13); (112%N,112%N,124); (113%N,122%N,13); (128%N,65532%N,29); (65534%N,1114111%N,29)], None);
  (* S111, transitiontable.go:2097 *) ([(48%N,57%N,44); (65%N,90%N,13); (95%N,95%N,21); (97%N,111%N,13); (112%N,112%N,125); (113%N,122%N,13); (128%N,65532%N,29); (65534%N,1114111%N,29)], None);
  (* S112, transitiontable.go:2119 *) ([(48%N,57%N,44); (65%N,90%N,13); (95%N,95%N,21); (97%N,122%N,13); (128%N,65532%N,29); (65534%N,1114111%N,29)], None);
  (* S113, transitiontable.go:2137 *) ([(48%N,57%N,44); (65%N,83%N,13); (84%N,84%N,126); (85%N,90%N,13); (95%N,95%N,21); (97%N,122%N,13); (128%N,65532%N,29); (65534%N,1114111%N,29)], None);
  (* S114, transitiontable.go:2159 *) ([(48%N,57%N,44); (65%N,65%N,127); (66%N,90%N,13); (95%N,95%N,21); (97%N,122%N,13); (128%N,65532%N,29); (65534%N,1114111%N,29)], None);
  (* S115, transitiontable.go:2179 *) ([(48%N,57%N,44); (65%N,90%N,13); (95%N,95%N,21); (97%N,115%N,13); (116%N,116%N,126); (117%N,122%N,13); (128%N,65532%N,29); (65534%N,1114111%N,29)], None);
  (* S116, transitiontable.go:2201 *) ([(48%N,57%N,44); (65%N,90%N,13); (95%N,95%N,21); (97%N,97%N,128); (98%N,122%N,13); (128%N,65532%N,29); (65534%N,1114111%N,29)], None);
  (* S117, transitiontable.go:2221 *) ([(48%N,57%N,44); (65%N,90%N,13); (95%N,95%N,21); (97%N,97%N,129); (98%N,122%N,13); (128%N,65532%N,29); (65534%N,1114111%N,29)], None);
  (* S118, transitiontable.go:2241 *) ([(48%N,57%N,44); (65%N,90%N,13); (95%N,95%N,21); (97%N,111%N,13); (112%N,112%N,130); (113%N,122%N,13); (128%N,65532%N,29); (65534%N,1114111%N,29)], None);
  (* S119, transitiontable.go:2263 *) ([(48%N,57%N,44); (65%N,90%N,13); (95%N,95%N,21); (97%N,111%N,13); (112%N,112%N,131); (113%N,122%N,13); (128%N,65532%N,29); (65534%N,1114111%N,29)], None);
  (* S120, transitiontable.go:2285 *) ([(48%N,57%N,44); (65%N,90%N,13); (95%N,95%N,21); (97%N,115%N,13); (116%N,116%N,126); (117%N,122%N,13); (128%N,65532%N,29); (65534%N,1114111%N,29)], None);
  (* S121, transitiontable.go:2307 *) ([(48%N,57%N,44); (65%N,90%N,13); (95%N,95%N,21); (97%N,97%N,132); (98%N,122%N,13); (128%N,65532%N,29); (65534%N,1114111%N,29)], None);
  (* S122, transitiontable.go:2327 *) ([(48%N,57%N,44); (65%N,90%N,13); (95%N,95%N,21); (97%N,97%N,133); (98%N,122%N,13); (128%N,65532%N,29); (65534%N,1114111%N,29)], None);
  (* S123, transitiontable.go:2347 *) ([(48%N,57%N,44); (65%N,71%N,13); (72%N,72%N,134); (73%N,90%N,13); (95%N,95%N,21); (97%N,122%N,13); (128%N,65532%N,29); (65534%N,1114111%N,29)], None);
  (* S124, transitiontable.go:2369 *) ([(48%N,57%N,44); (65%N,90%N,13); (95%N,95%N,21); (97%N,103%N,13); (104%N,104%N,134); (105%N,122%N,13); (128%N,65532%N,29); (65534%N,1114111%N,29)], None);
  (* S125, transitiontable.go:2391 *) ([(48%N,57%N,44); (65%N,90%N,13); (95%N,95%N,21); (97%N,103%N,13); (104%N,104%N,134); (105%N,122%N,13); (128%N,65532%N,29); (65534%N,1114111%N,29)], None);
  (* S126, transitiontable.go:2413 *) ([(48%N,57%N,44); (65%N,90%N,13); (95%N,95%N,21); (97%N,122%N,13); (128%N,65532%N,29); (65534%N,1114111%N,29)], None);
  (* S127, transitiontable.go:2431 *) ([(48%N,57%N,44); (65%N,79%N,13); (80%N,80%N,135); (81%N,90%N,13); (95%N,95%N,21); (97%N,122%N,13); (128%N,65532%N,29); (65534%N,1114111%N,29)], None);
  (* S128, transitiontable.go:2453 *) ([(48%N,57%N,44); (65%N,90%N,13); (95%N,95%N,21); (97%N,111%N,13); (112%N,112%N,136); (113%N,122%N,13); (128%N,65532%N,29); (65534%N,1114111%N,29)], None);
  (* S129, transitiontable.go:2475 *) ([(48%N,57%N,44); (65%N,90%N,13); (95%N,95%N,21); (97%N,111%N,13); (112%N,112%N,137); (113%N,122%N,13); (128%N,65532%N,29); (65534%N,1114111%N,29)], None);
  (* S130, transitiontable.go:2497 *) ([(48%N,57%N,44); (65%N,90%N,13); (95%N,95%N,21); (97%N,103%N,13); (104%N,104%N,134); (105%N,122%N,13); (128%N,65532%N,29); (65534%N,1114111%N,29)], None);
  (* S131, transitiontable.go:2519 *) ([(48%N,57%N,44); (65%N,90%N,13); (95%N,95%N,21); (97%N,103%N,13); (104%N,104%N,134); (105%N,122%N,13); (128%N,65532%N,29); (65534%N,1114111%N,29)], None);
  (* S132, transitiontable.go:2541 *) ([(48%N,57%N,44); (65%N,90%N,13); (95%N,95%N,21); (97%N,111%N,13); (112%N,112%N,138); (113%N,122%N,13); (128%N,65532%N,29); (65534%N,1114111%N,29)], None);
  (* S133, transitiontable.go:2563 *) ([(48%N,57%N,44); (65%N,90%N,13); (95%N,95%N,21); (97%N,111%N,13); (112%N,112%N,139); (113%N,122%N,13); (128%N,65532%N,29); (65534%N,1114111%N,29)], None);
  (* S134, transitiontable.go:2585 *) ([(48%N,57%N,44); (65%N,90%N,13); (95%N,95%N,21); (97%N,122%N,13); (128%N,65532%N,29); (65534%N,1114111%N,29)], None);
  (* S135, transitiontable.go:2603 *) ([(48%N,57%N,44); (65%N,71%N,13); (72%N,72%N,140); (73%N,90%N,13); (95%N,95%N,21); (97%N,122%N,13); (128%N,65532%N,29); (65534%N,1114111%N,29)], None);
  (* S136, transitiontable.go:2625 *) ([(48%N,57%N,44); (65%N,90%N,13); (95%N,95%N,21); (97%N,103%N,13); (104%N,104%N,140); (105%N,122%N,13); (128%N,65532%N,29); (65534%N,1114111%N,29)], None);
  (* S137, transitiontable.go:2647 *) ([(48%N,57%N,44); (65%N,90%N,13); (95%N,95%N,21); (97%N,103%N,13); (104%N,104%N,140); (105%N,122%N,13); (128%N,65532%N,29); (65534%N,1114111%N,29)], None);
  (* S138, transitiontable.go:2669 *) ([(48%N,57%N,44); (65%N,90%N,13); (95%N,95%N,21); (97%N,103%N,13); (104%N,104%N,140); (105%N,122%N,13); (128%N,65532%N,29); (65534%N,1114111%N,29)], None);
  (* S139, transitiontable.go:2691 *) ([(48%N,57%N,44); (65%N,90%N,13); (95%N,95%N,21); (97%N,103%N,13); (104%N,104%N,140); (105%N,122%N,13); (128%N,65532%N,29); (65534%N,1114111%N,29)], None);
  (* S140, transitiontable.go:2713 *) ([(48%N,57%N,44); (65%N,90%N,13); (95%N,95%N,21); (97%N,122%N,13); (128%N,65532%N,29); (65534%N,1114111%N,29)], None)
].

Definition act_tab : list (Z * bool) := [
  (* S0 *) ((0)%Z, false);
  (* S1 *) ((-1)%Z, true);
  (* S2 *) ((0)%Z, false);
  (* S3 *) ((0)%Z, false);
  (* S4 *) ((13)%Z, false);
  (* S5 *) ((0)%Z, false);
  (* S6 *) ((0)%Z, false);
  (* S7 *) ((0)%Z, false);
  (* S8 *) ((18)%Z, false);
  (* S9 *) ((14)%Z, false);
  (* S10 *) ((7)%Z, false);
  (* S11 *) ((0)%Z, false);
  (* S12 *) ((8)%Z, false);
  (* S13 *) ((18)%Z, false);
  (* S14 *) ((18)%Z, false);
  (* S15 *) ((18)%Z, false);
  (* S16 *) ((18)%Z, false);
  (* S17 *) ((18)%Z, false);
  (* S18 *) ((18)%Z, false);
  (* S19 *) ((11)%Z, false);
  (* S20 *) ((12)%Z, false);
  (* S21 *) ((18)%Z, false);
  (* S22 *) ((18)%Z, false);
  (* S23 *) ((18)%Z, false);
  (* S24 *) ((18)%Z, false);
  (* S25 *) ((18)%Z, false);
  (* S26 *) ((18)%Z, false);
  (* S27 *) ((3)%Z, false);
  (* S28 *) ((4)%Z, false);
  (* S29 *) ((18)%Z, false);
  (* S30 *) ((0)%Z, false);
  (* S31 *) ((18)%Z, false);
  (* S32 *) ((0)%Z, false);
  (* S33 *) ((0)%Z, false);
  (* S34 *) ((-1)%Z, true);
  (* S35 *) ((17)%Z, false);
  (* S36 *) ((16)%Z, false);
  (* S37 *) ((18)%Z, false);
  (* S38 *) ((0)%Z, false);
  (* S39 *) ((0)%Z, false);
  (* S40 *) ((18)%Z, false);
  (* S41 *) ((0)%Z, false);
  (* S42 *) ((0)%Z, false);
  (* S43 *) ((18)%Z, false);
  (* S44 *) ((18)%Z, false);
  (* S45 *) ((18)%Z, false);
  (* S46 *) ((18)%Z, false);
  (* S47 *) ((18)%Z, false);
  (* S48 *) ((18)%Z, false);
  (* S49 *) ((18)%Z, false);
  (* S50 *) ((18)%Z, false);
  (* S51 *) ((18)%Z, false);
  (* S52 *) ((18)%Z, false);
  (* S53 *) ((18)%Z, false);
  (* S54 *) ((18)%Z, false);
  (* S55 *) ((18)%Z, false);
  (* S56 *) ((18)%Z, false);
  (* S57 *) ((18)%Z, false);
  (* S58 *) ((18)%Z, false);
  (* S59 *) ((18)%Z, false);
  (* S60 *) ((18)%Z, false);
  (* S61 *) ((18)%Z, false);
  (* S62 *) ((18)%Z, false);
  (* S63 *) ((0)%Z, false);
  (* S64 *) ((0)%Z, false);
  (* S65 *) ((0)%Z, false);
  (* S66 *) ((0)%Z, false);
  (* S67 *) ((18)%Z, false);
  (* S68 *) ((0)%Z, false);
  (* S69 *) ((18)%Z, false);
  (* S70 *) ((18)%Z, false);
  (* S71 *) ((18)%Z, false);
  (* S72 *) ((18)%Z, false);
  (* S73 *) ((18)%Z, false);
  (* S74 *) ((18)%Z, false);
  (* S75 *) ((18)%Z, false);
  (* S76 *) ((18)%Z, false);
  (* S77 *) ((18)%Z, false);
  (* S78 *) ((18)%Z, false);
  (* S79 *) ((18)%Z, false);
  (* S80 *) ((18)%Z, false);
  (* S81 *) ((18)%Z, false);
  (* S82 *) ((18)%Z, false);
  (* S83 *) ((18)%Z, false);
  (* S84 *) ((18)%Z, false);
  (* S85 *) ((18)%Z, false);
  (* S86 *) ((18)%Z, false);
  (* S87 *) ((18)%Z, false);
  (* S88 *) ((18)%Z, false);
  (* S89 *) ((-1)%Z, true);
  (* S90 *) ((0)%Z, false);
  (* S91 *) ((18)%Z, false);
  (* S92 *) ((18)%Z, false);
  (* S93 *) ((18)%Z, false);
  (* S94 *) ((10)%Z, false);
  (* S95 *) ((18)%Z, false);
  (* S96 *) ((18)%Z, false);
  (* S97 *) ((9)%Z, false);
  (* S98 *) ((18)%Z, false);
  (* S99 *) ((18)%Z, false);
  (* S100 *) ((18)%Z, false);
  (* S101 *) ((18)%Z, false);
  (* S102 *) ((18)%Z, false);
  (* S103 *) ((18)%Z, false);
  (* S104 *) ((18)%Z, false);
  (* S105 *) ((18)%Z, false);
  (* S106 *) ((18)%Z, false);
  (* S107 *) ((18)%Z, false);
  (* S108 *) ((18)%Z, false);
  (* S109 *) ((18)%Z, false);
  (* S110 *) ((18)%Z, false);
  (* S111 *) ((18)%Z, false);
  (* S112 *) ((2)%Z, false);
  (* S113 *) ((18)%Z, false);
  (* S114 *) ((18)%Z, false);
  (* S115 *) ((18)%Z, false);
  (* S116 *) ((18)%Z, false);
  (* S117 *) ((18)%Z, false);
  (* S118 *) ((18)%Z, false);
  (* S119 *) ((18)%Z, false);
  (* S120 *) ((18)%Z, false);
  (* S121 *) ((18)%Z, false);
  (* S122 *) ((18)%Z, false);
  (* S123 *) ((18)%Z, false);
  (* S124 *) ((18)%Z, false);
  (* S125 *) ((18)%Z, false);
  (* S126 *) ((5)%Z, false);
  (* S127 *) ((18)%Z, false);
  (* S128 *) ((18)%Z, false);
  (* S129 *) ((18)%Z, false);
  (* S130 *) ((18)%Z, false);
  (* S131 *) ((18)%Z, false);
  (* S132 *) ((18)%Z, false);
  (* S133 *) ((18)%Z, false);
  (* S134 *) ((6)%Z, false);
  (* S135 *) ((18)%Z, false);
  (* S136 *) ((18)%Z, false);
  (* S137 *) ((18)%Z, false);
  (* S138 *) ((18)%Z, false);
  (* S139 *) ((18)%Z, false);
  (* S140 *) ((15)%Z, false)
].
