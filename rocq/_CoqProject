-Q theories Verif
theories/Algebra_Proof.v
theories/Algebra_Spec.v
theories/Array_Lift.v
theories/Array_Model.v
theories/Array_Proof.v
theories/Array_Spec.v
theories/BCH_Alg.v
theories/BCH_BM.v
theories/BCH_Bridge.v
theories/BCH_Dec.v
theories/BCH_Field.v
theories/BCH_List.v
theories/BCH_Model.v
theories/BCH_Spec.v
theories/BCJR_Model.v
theories/BCJR_Proof.v
theories/BCJR_Spec.v
theories/BinPoly_Model.v
theories/BinPoly_Proof.v
theories/BitsNd_Model.v
theories/BitsNd_Proof.v
theories/BitsNd_Spec.v
theories/Bits_Model.v
theories/Bits_Proof.v
theories/BlockCode_Model.v
theories/BlockCode_Proof.v
theories/Canonical_Proof.v
theories/Cat_Bridge.v
theories/Cat_Gcd.v
theories/Cat_Gens.v
theories/Cat_High.v
theories/Cat_Link.v
theories/Cat_Lists.v
theories/Cat_Main.v
theories/Cat_Minors.v
theories/Cat_Model.v
theories/Cat_Rank.v
theories/Cat_Series.v
theories/Cat_Smith.v
theories/Cat_Spec.v
theories/Cat_Top.v
theories/Chain_Proof.v
theories/Chain_Spec.v
theories/Channel_Model.v
theories/ClassicCodes_Model.v
theories/ClassicCodes_Proof.v
theories/Code_Spec.v
theories/Common.v
theories/Const_Cross.v
theories/Const_Model.v
theories/Const_Post.v
theories/Const_Proof.v
theories/Const_Spec.v
theories/Const_Stats.v
theories/ConvCons_Proof.v
theories/ConvTerm_Proof.v
theories/ConvViterbi_Proof.v
theories/Conv_Model.v
theories/Conv_Proof.v
theories/Conv_Spec.v
theories/Convolve_Proof.v
theories/Corr_Model.v
theories/Corr_Proof.v
theories/Corr_Spec.v
theories/CosetLeaders_Proof.v
theories/Cover_Proof.v
theories/Cyclic_Model.v
theories/Cyclic_Proof.v
theories/DecodersNd_Model.v
theories/DecodersNd_Proof.v
theories/DecodersNd_Spec.v
theories/Decoders_Proof.v
theories/Det_Model.v
theories/Det_Proof.v
theories/Eq_Model.v
theories/Eq_Spec.v
theories/Eval_Model.v
theories/Eval_Proof.v
theories/Eval_Proof2.v
theories/Eval_Proof3.v
theories/Eval_Spec.v
theories/FB_Model.v
theories/FB_Proof.v
theories/FB_Spec.v
theories/FSM_Model.v
theories/FSM_Proof.v
theories/FSM_Spec.v
theories/FloatCodes_Model.v
theories/FloatCodes_Proof.v
theories/FloatCodes_Spec.v
theories/FloatConst_Model.v
theories/FloatConst_Proof.v
theories/FloatFano_Proof.v
theories/FloatHuffman_Proof.v
theories/FloatPhase_Model.v
theories/FloatPhase_PSK.v
theories/FloatPhase_Proof.v
theories/FloatPhase_Search.v
theories/FloatPhase_Spec.v
theories/FloatRate_Divergence.v
theories/FloatRate_Entropy.v
theories/FloatRate_Model.v
theories/FloatRate_Proof.v
theories/FloatRate_Spec.v
theories/FloatShannon_Model.v
theories/FloatShannon_Proof.v
theories/FloatShannon_Spec.v
theories/FloatSoft_Model.v
theories/FloatSoft_Proof.v
theories/FloatSoft_Reed.v
theories/FloatSoft_SC.v
theories/FloatSoft_Spec.v
theories/FloatSoft_Wagner.v
theories/FloatViterbi_Model.v
theories/FloatViterbi_Proof.v
theories/FloatViterbi_Spec.v
theories/Float_Model.v
theories/Float_Proof.v
theories/Float_Spec.v
theories/Fourier_Model.v
theories/Fourier_Proof.v
theories/Fourier_Spec.v
theories/FreeDist_Proof.v
theories/GF2_Proof.v
theories/GFConj_Proof.v
theories/GFField_Proof.v
theories/Hamming_Proof.v
theories/History_Model.v
theories/History_Proof.v
theories/History_Proof2.v
theories/History_Proof3.v
theories/History_Proof4.v
theories/History_Spec.v
theories/HuffmanOpt_Proof.v
theories/Huffman_Proof.v
theories/Info_AB.v
theories/Info_Binary.v
theories/Info_Link.v
theories/Info_Model.v
theories/Info_Proof.v
theories/Info_Spec.v
theories/Info_Sums.v
theories/IntegerCodes_Model.v
theories/IntegerCodes_Proof.v
theories/Irreducible_Proof.v
theories/Kraft_Proof.v
theories/LFSR_Model.v
theories/LFSR_Poly.v
theories/LFSR_Proof.v
theories/LFSR_Spec.v
theories/Labeling_Model.v
theories/Labeling_Proof.v
theories/Labeling_Spec.v
theories/Lcm_Proof.v
theories/Lcm_Spec.v
theories/LempelZivWindow_Model.v
theories/LempelZivWindow_Proof.v
theories/LempelZiv_Model.v
theories/LempelZiv_Proof.v
theories/Lexicode_Proof.v
theories/LinAlg_Model.v
theories/LinAlg_Proof.v
theories/Linear_Spec.v
theories/LosslessCons_Model.v
theories/LosslessCons_Proof.v
theories/LosslessCons_Spec.v
theories/Marginalize_Proof.v
theories/Markov_Absorb.v
theories/Markov_Limit.v
theories/Markov_Linear.v
theories/Markov_Model.v
theories/Markov_Period.v
theories/Markov_Prim.v
theories/Markov_Proof.v
theories/Markov_Sim.v
theories/Markov_Spec.v
theories/Markov_Wielandt.v
theories/McMillan_Proof.v
theories/Mse_Model.v
theories/Mse_Proof.v
theories/Mse_Proof2.v
theories/Mse_Spec.v
theories/NdMaps_Model.v
theories/NdMaps_Proof.v
theories/NdMaps_Proof2.v
theories/NdMaps_Spec.v
theories/Nd_Model.v
theories/Null_Proof.v
theories/Parse_Proof.v
theories/PmfCodes_Model.v
theories/PmfCodes_Proof.v
theories/Polar_Model.v
theories/Polar_Proof.v
theories/PolyN_Proof.v
theories/PolyVec_Proof.v
theories/Prefix_Model.v
theories/Prefix_Proof.v
theories/PrimeFactors_Proof.v
theories/Props_Algebra.v
theories/Props_Array.v
theories/Props_BCH.v
theories/Props_BCJR.v
theories/Props_BitsNd.v
theories/Props_Catastrophic.v
theories/Props_Chain.v
theories/Props_Channel.v
theories/Props_ClassicCodes.v
theories/Props_Codes.v
theories/Props_Constellation.v
theories/Props_Conv.v
theories/Props_ConvViterbi.v
theories/Props_Correlation.v
theories/Props_Cyclic.v
theories/Props_DecodersNd.v
theories/Props_Determinant.v
theories/Props_Eq.v
theories/Props_Eval.v
theories/Props_FB.v
theories/Props_FSM.v
theories/Props_Float.v
theories/Props_FloatBinary.v
theories/Props_FloatCodes.v
theories/Props_FloatConst.v
theories/Props_FloatDivergence.v
theories/Props_FloatPhase.v
theories/Props_FloatRate.v
theories/Props_FloatShannon.v
theories/Props_FloatSoft.v
theories/Props_FloatViterbi.v
theories/Props_Fourier.v
theories/Props_History.v
theories/Props_Info.v
theories/Props_InfoDomain.v
theories/Props_LFSR.v
theories/Props_Labeling.v
theories/Props_Lcm.v
theories/Props_LempelZiv.v
theories/Props_Lossless.v
theories/Props_LosslessCons.v
theories/Props_Marginalize.v
theories/Props_Markov.v
theories/Props_Mse.v
theories/Props_NdMaps.v
theories/Props_PmfCodes.v
theories/Props_Polar.v
theories/Props_Pulse.v
theories/Props_PulseRoot.v
theories/Props_Quantizer.v
theories/Props_Rate.v
theories/Props_Reconf.v
theories/Props_ReedMuller.v
theories/Props_Repr.v
theories/Props_Rng.v
theories/Props_SC.v
theories/Props_Signal.v
theories/Props_SignalNd.v
theories/Props_Soft.v
theories/Props_Special.v
theories/Props_Stream.v
theories/Props_Walsh.v
theories/Pulse_Basic.v
theories/Pulse_Beau.v
theories/Pulse_Gauss.v
theories/Pulse_Gauss2.v
theories/Pulse_Int.v
theories/Pulse_Model.v
theories/Pulse_RC.v
theories/Pulse_RC2.v
theories/Pulse_RootBeau.v
theories/Pulse_Spec.v
theories/Pulse_Tol.v
theories/Quant_Model.v
theories/Quant_Proof.v
theories/Quant_Spec.v
theories/Rate_Bounds.v
theories/Rate_Internal.v
theories/Rate_Model.v
theories/Rate_Proof.v
theories/Rate_Spec.v
theories/Rate_Tree.v
theories/Rate_Tunstall.v
theories/Reconf_Model.v
theories/Reconf_Proof.v
theories/Reconf_Spec.v
theories/ReedMuller_Model.v
theories/ReedMuller_Proof.v
theories/Repr_Builtin.v
theories/Repr_Model.v
theories/Repr_Proof.v
theories/Repr_Proof2.v
theories/Repr_Proof3.v
theories/Repr_Proof4.v
theories/Repr_Proof5.v
theories/Repr_Spec.v
theories/Repr_Spec2.v
theories/Rng_Model.v
theories/Rng_Proof.v
theories/Rng_Proof2.v
theories/Rng_Spec.v
theories/SC_Erasure.v
theories/SC_Exact.v
theories/SC_Model.v
theories/SC_Proof.v
theories/SC_Spec.v
theories/SignalNd_Model.v
theories/SignalNd_Spec.v
theories/Signal_Model.v
theories/Signal_Proof.v
theories/Soft_Proof.v
theories/Soft_Spec.v
theories/Spec_Lossless.v
theories/Special_Gauss.v
theories/Special_Marcum.v
theories/Special_Marcum2.v
theories/Special_Model.v
theories/Special_Spec.v
theories/Stream_Decode.v
theories/Stream_Model.v
theories/Stream_Proof.v
theories/Stream_Spec.v
theories/Stream_Top.v
theories/Systematic_Proof.v
theories/Vec_Model.v
theories/Vec_Proof.v
theories/Wagner_Model.v
theories/Wagner_Proof.v
theories/Walsh_Model.v
theories/Walsh_Proof.v
theories/Walsh_Spec.v
theories/XRref_Proof.v
