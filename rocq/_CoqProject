-Q theories Verif
theories/Amp.v
theories/AmpBdt.v
theories/AmpBdt2.v
theories/AmpC.v
theories/AmpC2.v
theories/AmpF.v
theories/AmpPolar.v
theories/AmpQ8.v
theories/AmpQ8b.v
theories/Bits.v
theories/MAlu.v
theories/MApi.v
theories/MApi2.v
theories/MBdt.v
theories/MBigInteger.v
theories/MCircuit.v
theories/MCircuit2.v
theories/MDecompose.v
theories/MDispatch.v
theories/MEngine.v
theories/MExpect.v
theories/MExpect2.v
theories/MForce.v
theories/MFunctions.v
theories/MKernel.v
theories/MMaps.v
theories/MMeasure.v
theories/MNeuron.v
theories/MNoise.v
theories/MPager.v
theories/MPager2.v
theories/MParFor.v
theories/MQCircuit.v
theories/MRegs.v
theories/MRot.v
theories/MShard.v
theories/MShift.v
theories/MShots.v
theories/MStab.v
theories/MTensor.v
theories/MUCliff.v
theories/MUnit.v
theories/PAlu.v
theories/PAlu2.v
theories/PAlu3.v
theories/PAlu4.v
theories/PAlu5.v
theories/PAlu6.v
theories/PAlu7.v
theories/PAlu8.v
theories/PAlu9.v
theories/PAmp.v
theories/PApi1.v
theories/PApi10.v
theories/PApi11.v
theories/PApi2.v
theories/PApi3.v
theories/PApi4.v
theories/PApi5.v
theories/PApi6.v
theories/PApi7.v
theories/PApi8.v
theories/PApi9.v
theories/PApiProp.v
theories/PApiProp2.v
theories/PApply.v
theories/PBdt1.v
theories/PBdt10.v
theories/PBdt2.v
theories/PBdt3.v
theories/PBdt4.v
theories/PBdt5.v
theories/PBdt6.v
theories/PBdt7.v
theories/PBdt8.v
theories/PBdt9.v
theories/PBdtProp.v
theories/PBigInteger.v
theories/PBigInteger2.v
theories/PCirc2Ex.v
theories/PCirc2Prop.v
theories/PCircuit.v
theories/PCircuit10.v
theories/PCircuit11.v
theories/PCircuit12.v
theories/PCircuit13.v
theories/PCircuit14.v
theories/PCircuit15.v
theories/PCircuit16.v
theories/PCircuit2.v
theories/PCircuit3.v
theories/PCircuit4.v
theories/PCircuit5.v
theories/PCircuit6.v
theories/PCircuit7.v
theories/PCircuit8.v
theories/PCircuit9.v
theories/PCompose.v
theories/PDecompose.v
theories/PDispatch.v
theories/PEngine.v
theories/PEngine2.v
theories/PExpProp.v
theories/PExpProp2.v
theories/PExpect1.v
theories/PExpect2.v
theories/PExpect3.v
theories/PExpect4.v
theories/PForce.v
theories/PForceProp.v
theories/PFunctions.v
theories/PGates.v
theories/PGates2.v
theories/PGates3.v
theories/PKernel.v
theories/PLoop.v
theories/PMaps.v
theories/PMaps2.v
theories/PMaskBits.v
theories/PMeasure.v
theories/PNeuron1.v
theories/PNeuron2.v
theories/PNeuron3.v
theories/PNeuron4.v
theories/PNeuronI.v
theories/PNeuronProp.v
theories/PNoise.v
theories/PNoiseProp.v
theories/PPager1.v
theories/PPager10.v
theories/PPager11.v
theories/PPager12.v
theories/PPager13.v
theories/PPager2.v
theories/PPager3.v
theories/PPager4.v
theories/PPager5.v
theories/PPager6.v
theories/PPager7.v
theories/PPager8.v
theories/PPager9.v
theories/PParFor.v
theories/PProb.v
theories/PQCirc1.v
theories/PQCirc2.v
theories/PQCirc3.v
theories/PQCirc4.v
theories/PQCirc5.v
theories/PQCirc6.v
theories/PQCirc7.v
theories/PQCirc8.v
theories/PRegs.v
theories/PRegsProp.v
theories/PRot.v
theories/PRotProp.v
theories/PShard1.v
theories/PShard10.v
theories/PShard2.v
theories/PShard3.v
theories/PShard4.v
theories/PShard5.v
theories/PShard6.v
theories/PShard7.v
theories/PShard8.v
theories/PShard9.v
theories/PShift.v
theories/PShiftProp.v
theories/PShots.v
theories/PShotsProp.v
theories/PStab1.v
theories/PStab10.v
theories/PStab11.v
theories/PStab12.v
theories/PStab13.v
theories/PStab14.v
theories/PStab2.v
theories/PStab3.v
theories/PStab4.v
theories/PStab5.v
theories/PStab6.v
theories/PStab7.v
theories/PStab8.v
theories/PStab9.v
theories/PTensor1.v
theories/PTensor2.v
theories/PTensor3.v
theories/PTensor4.v
theories/PTensor5.v
theories/PTensorProp.v
theories/PUCliff1.v
theories/PUCliff2.v
theories/PUCliff3.v
theories/PUCliff4.v
theories/PUCliff5.v
theories/PUCliff6.v
theories/PUCliff7.v
theories/PUCliffBug.v
theories/PUCliffProp.v
theories/PUnit1.v
theories/PUnit10.v
theories/PUnit11.v
theories/PUnit12.v
theories/PUnit13.v
theories/PUnit14.v
theories/PUnit15.v
theories/PUnit16.v
theories/PUnit17.v
theories/PUnit18.v
theories/PUnit19.v
theories/PUnit2.v
theories/PUnit20.v
theories/PUnit21.v
theories/PUnit22.v
theories/PUnit23.v
theories/PUnit24.v
theories/PUnit25.v
theories/PUnit26.v
theories/PUnit3.v
theories/PUnit4.v
theories/PUnit5.v
theories/PUnit6.v
theories/PUnit7.v
theories/PUnit8.v
theories/PUnit9.v
theories/PUnitBug.v
theories/PUnitMeas.v
theories/PUnitProg.v
theories/PUnitW.v
theories/PropAlu.v
theories/PropApi.v
theories/PropApi2.v
theories/PropBdt.v
theories/PropBigInteger.v
theories/PropCircuits.v
theories/PropCircuits2.v
theories/PropDecompose.v
theories/PropDispatch.v
theories/PropEngine.v
theories/PropExpect.v
theories/PropExpect2.v
theories/PropForce.v
theories/PropFunctions.v
theories/PropMaps.v
theories/PropMeas.v
theories/PropMeasure.v
theories/PropNeuron.v
theories/PropNoise.v
theories/PropPager.v
theories/PropParFor.v
theories/PropQCircuit.v
theories/PropRegs.v
theories/PropRot.v
theories/PropShard.v
theories/PropShift.v
theories/PropShots.v
theories/PropStab.v
theories/PropTensor.v
theories/PropUCliff.v
theories/PropUnit.v
theories/PropUnitBug.v
theories/SpecAlu.v
theories/SpecApi.v
theories/SpecApi2.v
theories/SpecApi3.v
theories/SpecBdt.v
theories/SpecBigInteger.v
theories/SpecCircuit.v
theories/SpecCircuit2.v
theories/SpecDecompose.v
theories/SpecDispatch.v
theories/SpecEngine.v
theories/SpecExpect.v
theories/SpecExpect2.v
theories/SpecForce.v
theories/SpecFunctions.v
theories/SpecMaps.v
theories/SpecMeasure.v
theories/SpecNeuron.v
theories/SpecNoise.v
theories/SpecPager.v
theories/SpecPager2.v
theories/SpecParFor.v
theories/SpecQCircuit.v
theories/SpecRegs.v
theories/SpecRot.v
theories/SpecShard.v
theories/SpecShift.v
theories/SpecShots.v
theories/SpecStab.v
theories/SpecStab2.v
theories/SpecState.v
theories/SpecTensor.v
theories/SpecUCliff.v
theories/SpecUnit.v
theories/SpecUnit2.v
theories/SpecUnit3.v
