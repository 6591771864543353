-Q theories Verif
theories/Ring64.v
theories/Sharing.v
theories/Sharing_proofs.v
theories/P_Sharing.v
theories/Encoder.v
theories/Encoder_proofs.v
theories/P_Encoder.v
theories/Arith.v
theories/Arith_proofs.v
theories/P_Arith.v
theories/Beaver.v
theories/Beaver_proofs.v
theories/P_Beaver.v
theories/Trunc.v
theories/Trunc_proofs.v
theories/P_Trunc.v
theories/Provider.v
theories/Binary.v
theories/Binary_proofs.v
theories/Circuit_proofs.v
theories/Convert_proofs.v
theories/Tfp.v
theories/Tfp_proofs.v
theories/P_Tfp.v
theories/P_Binary.v
theories/Compare.v
theories/Compare_proofs.v
theories/Compare_claims.v
theories/P_Compare.v
theories/Maximum.v
theories/Maximum_proofs.v
theories/Maximum_claims.v
theories/P_Maximum.v
theories/Regular.v
theories/Regular_proofs.v
theories/Regular_num_proofs.v
theories/Regular_claims.v
theories/P_Regular.v
theories/Ttp.v
theories/Ttp_proofs.v
theories/P_Ttp.v
theories/Cache.v
theories/Cache_proofs.v
theories/P_Cache.v
theories/Config.v
theories/Config_proofs.v
theories/P_Config.v
theories/Inproc.v
theories/Inproc_proofs.v
theories/P_Inproc.v
theories/Ot.v
theories/Ot_proofs.v
theories/Ot_order.v
theories/P_Ot.v
theories/Cuda.v
theories/Cuda_proofs.v
theories/P_Cuda.v
theories/Pool.v
theories/Pool_proofs.v
theories/P_Pool.v
theories/Adaptive.v
theories/Adaptive_proofs.v
theories/Adaptive_claims.v
theories/P_Adaptive.v
theories/Autograd.v
theories/Autograd_proofs.v
theories/Autograd_claims.v
theories/P_Autograd.v
theories/Gradmode.v
theories/P_Gradmode.v
theories/Optim.v
theories/Optim_claims.v
theories/P_Optim.v
theories/Launch.v
theories/Launch_proofs.v
theories/P_Launch.v
theories/Tensor.v
theories/Tensor_proofs.v
theories/Gradfn.v
theories/Broadcast_claims.v
theories/P_Broadcast.v
theories/Gradfn_claims.v
theories/Gradfn_claims2.v
theories/Gradfn_claims3.v
theories/Gradfn_claims4.v
theories/Gradfn_claims5.v
theories/Gradfn_claims6.v
theories/P_Gradfn.v
theories/Matmul.v
theories/Matmul_claims.v
theories/P_Matmul.v
theories/Conv.v
theories/Conv_proofs.v
theories/Conv_claims.v
theories/P_Conv.v
theories/Graphmod.v
theories/Graphmod_claims.v
theories/P_Graphmod.v
theories/Statedict.v
theories/Statedict_claims.v
theories/P_Statedict.v
theories/Commstats.v
theories/Commstats_claims.v
theories/P_Commstats.v
theories/Serial.v
theories/Serial_claims.v
theories/P_Serial.v
theories/Dpsplit.v
theories/Dpsplit_claims.v
theories/P_Dpsplit.v
theories/Rtensor.v
theories/Rtensor_proofs.v
theories/Realgrad.v
theories/Realgrad_claims.v
theories/P_Realgrad.v
theories/Realloss.v
theories/Realloss_claims.v
theories/P_Realloss.v
theories/Realred.v
theories/Realred_proofs.v
theories/Realred_claims.v
theories/P_Realred.v
theories/Approx.v
theories/Approx_claims.v
theories/P_Approx.v
theories/Approxfn_claims.v
theories/P_Approxfn.v
theories/Enclose.v
theories/Approxlog_claims.v
theories/P_Approxlog.v
theories/Approxcheb_claims.v
theories/P_Approxcheb.v
theories/Approxsoft_claims.v
theories/P_Approxsoft.v
theories/Shareapprox.v
theories/Shareapprox_proofs.v
theories/Shareapprox_claims.v
theories/P_Shareapprox.v
theories/Sharetrig.v
theories/Sharetrig_claims.v
theories/P_Sharetrig.v
theories/Sharesoft.v
theories/Sharesoft_claims.v
theories/P_Sharesoft.v
theories/Modstate.v
theories/Modstate_proofs.v
theories/Modstate_claims.v
theories/P_Modstate.v
theories/Onnx.v
theories/Onnx_claims.v
theories/Onnx_claims2.v
theories/Onnx_claims3.v
theories/P_Onnx.v
theories/Secrecy.v
theories/Secrecy_claims.v
theories/Secrecy_claims2.v
theories/P_Secrecy.v
theories/Leak.v
theories/Leak_claims.v
theories/P_Leak.v
theories/Views.v
theories/Views_claims.v
theories/Views_claims2.v
theories/P_Views.v
theories/Net.v
theories/Net_claims.v
theories/P_Net.v
theories/Load.v
theories/Load_claims.v
theories/P_Load.v
theories/Program.v
theories/Program_claims.v
theories/P_Program.v
theories/Chance.v
theories/Chance_claims.v
theories/P_Chance.v
theories/Tracked.v
theories/Tracked_claims.v
theories/P_Tracked.v
theories/Sampling.v
theories/Sampling_claims.v
theories/P_Sampling.v
theories/Chain.v
theories/Chain_proofs.v
theories/Chain_claims.v
theories/P_Chain.v
theories/Dispatch.v
theories/Dispatch_claims.v
theories/P_Dispatch.v
theories/Shareroot.v
theories/Shareroot_claims.v
theories/P_Shareroot.v
theories/Sharepoly_claims.v
theories/P_Sharepoly.v
theories/Sharelog.v
theories/Sharelog_claims.v
theories/Sharesettings_claims.v
theories/P_Sharelog.v
theories/Shareerf.v
theories/Shareerf_claims.v
theories/P_Shareerf.v
theories/Interp_claims.v
theories/P_Interp.v
theories/Sharecheb.v
theories/Sharecheb_claims.v
theories/Chebcoef_claims.v
theories/P_Sharecheb.v
theories/Sharerecip.v
theories/Sharerecip_claims.v
theories/P_Sharerecip.v
theories/Sharepow.v
theories/Sharepow_claims.v
theories/P_Sharepow.v
theories/Sharepospow.v
theories/Sharepospow_claims.v
theories/P_Sharepospow.v
theories/Training.v
theories/Training_claims.v
theories/P_Training.v
theories/Sharenorm.v
theories/Sharenorm_claims.v
theories/P_Sharenorm.v
theories/Trainchance.v
theories/Trainchance_claims.v
theories/P_Trainchance.v
theories/Shareloss.v
theories/Shareloss_claims.v
theories/P_Shareloss.v
theories/Logit_proofs.v
theories/Logit.v
theories/Logit_claims.v
theories/P_Logit.v
theories/Gradmem.v
theories/Gradmem_proofs.v
theories/Gradmem_claims.v
theories/P_Gradmem.v
theories/Threadgen.v
theories/Threadgen_proofs.v
theories/Threadgen_claims.v
theories/P_Threadgen.v
theories/Sharerappor.v
theories/Sharerappor_claims.v
theories/P_Sharerappor.v
theories/Threadbin.v
theories/Threadbin_claims.v
theories/P_Threadbin.v
theories/Threadtwo_claims.v
theories/P_Threadtwo.v
theories/Sharepnorm.v
theories/Sharepnorm_claims.v
theories/P_Sharepnorm.v
