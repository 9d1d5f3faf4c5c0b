-Q theories Verif
theories/Perm.v
theories/Channel_Model.v
theories/Channel_Spec.v
theories/Channel_Inv.v
theories/Channel_Ledger.v
theories/Channel_Complete.v
theories/Channel_Abs.v
theories/Channel_Disc.v
theories/Channel_Close.v
theories/Channel_Final.v
theories/Channel_Props.v
theories/Comb_Model.v
theories/Comb_Spec.v
theories/Comb_Core.v
theories/Comb_Trace.v
theories/Comb_Data.v
theories/Comb_Calm.v
theories/Comb_Signal.v
theories/Comb_Sent.v
theories/Comb_Final.v
theories/Comb_Result.v
theories/Comb_Claims.v
theories/Comb_Tidy.v
theories/Comb_Once.v
theories/Comb_Props.v
theories/Promise_Model.v
theories/Promise_Spec.v
theories/Promise_Inv.v
theories/Promise_Step.v
theories/Promise_Final.v
theories/Promise_Props.v
theories/Task_Model.v
theories/Task_Spec.v
theories/Task_Inv.v
theories/Task_Step.v
theories/Task_Final.v
theories/Task_Props.v
theories/Run_Model.v
theories/Run_Spec.v
theories/Run_Final.v
theories/Run_Props.v
theories/Gen_Model.v
theories/Gen_Spec.v
theories/Gen_Inv.v
theories/Gen_Step.v
theories/Gen_Calm.v
theories/Gen_Last.v
theories/Gen_Final.v
theories/Gen_Thrown.v
theories/Gen_Props.v
theories/Sbo_Model.v
theories/Sbo_Spec.v
theories/Sbo_Proofs.v
theories/Sbo_Props.v
theories/Mono_Model.v
theories/Mono_Spec.v
theories/Mono_Proofs.v
theories/Mono_Props.v
theories/Op_Model.v
theories/Op_Spec.v
theories/Op_Proofs.v
theories/Op_Props.v
theories/Wg_Model.v
theories/Wg_Spec.v
theories/Wg_Proofs.v
theories/Wg_Final.v
theories/Wg_Props.v
theories/With_Model.v
theories/With_Spec.v
theories/With_Proofs.v
theories/With_Props.v
theories/Comp_Model.v
theories/Comp_Spec.v
theories/Comp_Proofs.v
theories/Comp_Props.v
theories/Buf_Model.v
theories/Buf_Spec.v
theories/Buf_Proofs.v
theories/Buf_Props.v
theories/Ep_Model.v
theories/Ep_Spec.v
theories/Ep_Proofs.v
theories/Ep_Props.v
theories/File_Model.v
theories/File_Spec.v
theories/File_Proofs.v
theories/File_Props.v
theories/Frame_Model.v
theories/Frame_Proofs.v
theories/Frame_Props.v
theories/Thread_Model.v
theories/Thread_Spec.v
theories/Thread_Proofs.v
theories/Thread_Props.v
theories/Res_Model.v
theories/Res_Spec.v
theories/Res_Props.v
theories/Err_Model.v
theories/Err_Props.v
theories/Tic_Model.v
theories/Tic_Spec.v
theories/Tic_Props.v
theories/Main_Model.v
theories/Main_Spec.v
theories/Main_Props.v
theories/Handle_Model.v
theories/Handle_Spec.v
theories/Handle_Props.v
theories/Sock_Model.v
theories/Sock_Spec.v
theories/Sock_Props.v
theories/For_Model.v
theories/For_Spec.v
theories/For_Props.v
theories/Rch_Model.v
theories/Rch_Spec.v
theories/Rch_Chan.v
theories/Rch_Inv.v
theories/Rch_Quiet.v
theories/Rch_Step.v
theories/Rch_Live.v
theories/Rch_Props.v
theories/Ctx_Model.v
theories/Ctx_Spec.v
theories/Ctx_Acc.v
theories/Ctx_Proofs.v
theories/Ctx_Props.v
theories/Tls_Model.v
theories/Tls_Spec.v
theories/Tls_Props.v
theories/Gmv_Model.v
theories/Gmv_Spec.v
theories/Gmv_Proofs.v
theories/Gmv_Sim.v
theories/Gmv_Place.v
theories/Gmv_Props.v
theories/Tim_Model.v
theories/Tim_Spec.v
theories/Tim_Proofs.v
theories/Tim_Props.v
theories/Chd_Model.v
theories/Chd_Spec.v
theories/Chd_Proofs.v
theories/Chd_Props.v
theories/Cfw_Model.v
theories/Cfw_Spec.v
theories/Cfw_Proofs.v
theories/Cfw_Props.v
theories/Paw_Model.v
theories/Paw_Spec.v
theories/Paw_Proofs.v
theories/Paw_Props.v
theories/Ssl_Model.v
theories/Ssl_Spec.v
theories/Ssl_Proofs.v
theories/Ssl_Props.v
theories/Acc_Model.v
theories/Acc_Spec.v
theories/Acc_Proofs.v
theories/Acc_Props.v
theories/Rgn_Model.v
theories/Rgn_Spec.v
theories/Rgn_Inv.v
theories/Rgn_Step.v
theories/Rgn_Run.v
theories/Rgn_More.v
theories/Rgn_Props.v
theories/Yld_Model.v
theories/Yld_Spec.v
theories/Yld_Props.v
theories/Nst_Model.v
theories/Nst_Spec.v
theories/Nst_Proofs.v
theories/Nst_Props.v
theories/Sel_Model.v
theories/Sel_Spec.v
theories/Sel_Chan.v
theories/Sel_Inv.v
theories/Sel_Quiet.v
theories/Sel_Step.v
theories/Sel_Live.v
theories/Sel_Cancel.v
theories/Sel_Props.v
theories/Nop_Spec.v
theories/Nop_Promise.v
theories/Nop_Task.v
theories/Nop_Props.v
theories/Gch_Model.v
theories/Gch_Spec.v
theories/Gch_Inv.v
theories/Gch_Chan.v
theories/Gch_Live.v
theories/Gch_Final.v
theories/Gch_Props.v
theories/Crd_Model.v
theories/Crd_Spec.v
theories/Crd_Inv.v
theories/Crd_Live.v
theories/Crd_Final.v
theories/Crd_Props.v
theories/Kpn_Model.v
theories/Kpn_Spec.v
theories/Kpn_Chan.v
theories/Kpn_Kahn.v
theories/Kpn_Net.v
theories/Kpn_Props.v
theories/Sig_Model.v
theories/Sig_Spec.v
theories/Sig_Inv.v
theories/Sig_Count.v
theories/Sig_Props.v
theories/Mrs_Model.v
theories/Mrs_Spec.v
theories/Mrs_Inv.v
theories/Mrs_Own.v
theories/Mrs_Safe.v
theories/Mrs_Trace.v
theories/Mrs_Props.v
theories/Rsv_Model.v
theories/Rsv_Spec.v
theories/Rsv_Inv.v
theories/Rsv_Good.v
theories/Rsv_Props.v
theories/Dial_Model.v
theories/Dial_Spec.v
theories/Dial_Inv.v
theories/Dial_Good.v
theories/Dial_Fd.v
theories/Dial_Props.v
theories/Fob_Model.v
theories/Fob_Spec.v
theories/Fob_Inv.v
theories/Fob_Good.v
theories/Fob_Props.v
theories/Rdy_Model.v
theories/Rdy_Spec.v
theories/Rdy_Inv.v
theories/Rdy_Props.v
theories/Wrt_Model.v
theories/Wrt_Spec.v
theories/Wrt_Inv.v
theories/Wrt_Props.v
