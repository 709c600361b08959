-Q theories Verif
theories/Word.v
theories/RunnerModel.v
theories/LoadModel.v
theories/RvSpec.v
theories/RunnerSpec.v
theories/RunSpec.v
theories/DecodeProofs.v
theories/ExecProofs.v
theories/IsaProofs.v
theories/StepProofs.v
theories/LoadProofs.v
theories/RunProofs.v
theories/EcallProofs.v
theories/RunnerProps.v
theories/Field.v
theories/Stark.v
theories/CpuModel.v
theories/TablesModel.v
theories/CircuitSpec.v
theories/TableProofs.v
theories/CpuArith.v
theories/CpuProofs.v
theories/CpuSound.v
theories/CpuWitness.v
theories/CpuComplete.v
theories/CpuGen.v
theories/CpuTrace.v
theories/CpuMem.v
theories/CircuitProps.v
theories/StateModel.v
theories/StateSpec.v
theories/StateProofs.v
theories/WordProofs.v
theories/RomProofs.v
theories/StateWitness.v
theories/StateProps.v
theories/WordProps.v
theories/SdkModel.v
theories/SdkSpec.v
theories/MerkleProofs.v
theories/EventProofs.v
theories/TapeProofs.v
theories/SdkProps.v
theories/RecModel.v
theories/RecSpec.v
theories/RecProofs.v
theories/RecTrees.v
theories/RecState.v
theories/RecComplete.v
theories/RecAttack.v
theories/RecProps.v
theories/NodeModel.v
theories/NodeSpec.v
theories/NodeState.v
theories/NodeStale.v
theories/NodeProps.v
theories/RowProps.v
theories/NodeTreeModel.v
theories/NodeTreeSpec.v
theories/NodeTreeProofs.v
theories/NodeTreeSdk.v
theories/NodeAddr.v
theories/NodeCast.v
theories/NodeTreeProps.v
theories/NodeMerge.v
theories/NodeMergeProps.v
theories/NodeMatchModel.v
theories/NodeMatchSpec.v
theories/NodeMatchProofs.v
theories/NodeMatchProps.v
theories/DeviceModel.v
theories/DeviceSpec.v
theories/DeviceProofs.v
theories/DeviceProps.v
theories/PoseidonModel.v
theories/PoseidonSpec.v
theories/PoseidonPerm.v
theories/PoseidonGen.v
theories/PoseidonLook.v
theories/PoseidonSound.v
theories/PoseidonProps.v
theories/MemGenModel.v
theories/MemGenProofs.v
theories/MemGenSteps.v
theories/MemGenAccs.v
theories/MemGenLook.v
theories/MemGenRun.v
theories/MemGenProps.v
theories/RegGenModel.v
theories/RegGenProofs.v
theories/RegGenLook.v
theories/RegGenRun.v
theories/RegGenProps.v
theories/ProofGenModel.v
theories/ProofGenSpec.v
theories/ProofGenTables.v
theories/ProofGenRun.v
theories/ProofGenProps.v
theories/SoundSpec.v
theories/SoundRows.v
theories/SoundRegs.v
theories/ForgeProps.v
theories/SoundStep.v
theories/SoundMem.v
theories/SoundMemStep.v
theories/SoundRun.v
theories/SoundProps.v
theories/LogupModel.v
theories/LogupSpec.v
theories/LogupProofs.v
theories/LogupSound.v
theories/LogupProps.v
theories/LogupSystem.v
theories/LogupSystemProofs.v
theories/LogupSystemProps.v
theories/ExprModel.v
theories/ExprSpec.v
theories/ExprProofs.v
theories/ExprCircuit.v
theories/ExprProps.v
theories/ColumnModel.v
theories/ColumnSpec.v
theories/ColumnProofs.v
theories/ColumnBound.v
theories/ColumnProps.v
theories/BatchModel.v
theories/BatchSpec.v
theories/BatchProofs.v
theories/BatchFri.v
theories/BatchArity.v
theories/BatchProps.v
theories/QuotModel.v
theories/QuotSpec.v
theories/QuotProofs.v
theories/QuotProps.v
theories/CosetModel.v
theories/CosetProofs.v
theories/CosetProps.v
theories/QuotCircuit.v
theories/QuotCircuitProps.v
theories/TransModel.v
theories/TransRec.v
theories/TransProps.v
